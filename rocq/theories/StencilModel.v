(** StencilModel.v -- the stencils of the composite bases.

    chebyshev/, legendre/, chebyshevu/, ultraspherical/, jacobi/ and laguerre/bases.py set
    self._stencil = {offset: expression in n}; the definitions below are these dictionaries,
    transcribed term by term (generated from the source text; sp.pi is PI, sp.sqrt is sqrt,
    sp.gamma is a parameter G).  Exact real arithmetic instead of doubles. *)
From Coq Require Import Reals ZArith String List.
From Verif Require Import Base Fld SparseModel RPoly.
Import ListNotations.
Local Open Scope R_scope.

(** boundary conditions in the naming of BoundaryConditions (spectralbase.py 1790-1960):
    D, N, N2, .. are derivatives of order 0, 1, 2, .. at the left or right end *)
Inductive side := Left | Right.
Record bcond := mkBc { bc_side : side; bc_order : nat }.

(** an entry of the dictionary: a constant or an expression in n *)
Inductive sitem := SConst (c : R) | SFun (f : R -> R).
Record stencil_class := mkClass {
  sc_name : string;
  sc_stencil : list (nat * sitem);
  sc_bcs : list bcond
}.

(** spectralbase.py 1504-1526 stencil_matrix: sp.lambdify(n, s)(k[:N-i]) is a number for a
    constant s; otherwise an array, whose entries from N - num_bcs on are set to zero *)
Definition stencil_item (N nbc : nat) (it : nat * sitem) : (Z * dval RFld)%type :=
  (Z.of_nat (fst it),
   match snd it with
   | SConst c => Scal RFld c
   | SFun f => Arr RFld (N - fst it)%nat (fun k => if Nat.ltb k (N - nbc)%nat then f (INR k) else 0)
   end).
Definition stencil_matrix (cls : stencil_class) (N : nat) : smat RFld :=
  mkSmat RFld N N 1 (map (stencil_item N (List.length (sc_bcs cls))) (sc_stencil cls)).

(** chebyshev/bases.py 546-546 class ShenDirichlet, bc as in its __init__ *)
Definition chebyshev_ShenDirichlet : stencil_class :=
  mkClass "chebyshev_ShenDirichlet"%string
    [(0%nat, SConst (1));
     (2%nat, SConst ((- 1)))]
    [mkBc Left 0; mkBc Right 0].

(** chebyshev/bases.py 656-656 class Phi1, bc as in its __init__ *)
Definition chebyshev_Phi1 : stencil_class :=
  mkClass "chebyshev_Phi1"%string
    [(0%nat, SFun (fun n => ((1 / PI) / (n + 1))));
     (2%nat, SFun (fun n => (((- 1) / PI) / (n + 1))))]
    [mkBc Left 0; mkBc Right 0].

(** chebyshev/bases.py 937-937 class ShenNeumann, bc as in its __init__ *)
Definition chebyshev_ShenNeumann : stencil_class :=
  mkClass "chebyshev_ShenNeumann"%string
    [(0%nat, SConst (1));
     (2%nat, SFun (fun n => (- ((n / (n + 2)) ^ 2))))]
    [mkBc Left 1; mkBc Right 1].

(** chebyshev/bases.py 1249-1249 class ShenBiharmonic, bc as in its __init__ *)
Definition chebyshev_ShenBiharmonic : stencil_class :=
  mkClass "chebyshev_ShenBiharmonic"%string
    [(0%nat, SConst (1));
     (2%nat, SFun (fun n => ((- ((2 * n) + 4)) / (n + 3))));
     (4%nat, SFun (fun n => ((n + 1) / (n + 3))))]
    [mkBc Left 0; mkBc Left 1; mkBc Right 0; mkBc Right 1].

(** chebyshev/bases.py 1441-1445 class Phi2, bc as in its __init__ *)
Definition chebyshev_Phi2 : stencil_class :=
  mkClass "chebyshev_Phi2"%string
    [(0%nat, SFun (fun n => (1 / (((2 * PI) * (n + 1)) * (n + 2)))));
     (2%nat, SFun (fun n => ((- 1) / (PI * (((n ^ 2) + (4 * n)) + 3)))));
     (4%nat, SFun (fun n => (1 / (((2 * PI) * (n + 2)) * (n + 3)))))]
    [mkBc Left 0; mkBc Left 1; mkBc Right 0; mkBc Right 1].

(** chebyshev/bases.py 1530-1535 class Phi3, bc as in its __init__ *)
Definition chebyshev_Phi3 : stencil_class :=
  mkClass "chebyshev_Phi3"%string
    [(0%nat, SFun (fun n => (1 / ((((4 * PI) * (n + 1)) * (n + 2)) * (n + 3)))));
     (2%nat, SFun (fun n => ((- 3) / ((((4 * PI) * (n + 1)) * (n + 3)) * (n + 4)))));
     (4%nat, SFun (fun n => (3 / ((((4 * PI) * (n + 2)) * (n + 3)) * (n + 5)))));
     (6%nat, SFun (fun n => ((- 1) / ((((4 * PI) * (n + 3)) * (n + 4)) * (n + 5)))))]
    [mkBc Left 0; mkBc Left 1; mkBc Left 2; mkBc Right 0; mkBc Right 1; mkBc Right 2].

(** chebyshev/bases.py 1614-1620 class Phi4, bc as in its __init__ *)
Definition chebyshev_Phi4 : stencil_class :=
  mkClass "chebyshev_Phi4"%string
    [(0%nat, SFun (fun n => (1 / (((((8 * PI) * (n + 1)) * (n + 2)) * (n + 3)) * (n + 4)))));
     (2%nat, SFun (fun n => ((- 1) / (((((2 * PI) * (n + 1)) * (n + 3)) * (n + 4)) * (n + 5)))));
     (4%nat, SFun (fun n => (3 / (((((4 * PI) * (n + 2)) * (n + 3)) * (n + 5)) * (n + 6)))));
     (6%nat, SFun (fun n => ((- 1) / (((((2 * PI) * (n + 3)) * (n + 4)) * (n + 5)) * (n + 7)))));
     (8%nat, SFun (fun n => (1 / (((((8 * PI) * (n + 4)) * (n + 5)) * (n + 6)) * (n + 7)))))]
    [mkBc Left 0; mkBc Left 1; mkBc Left 2; mkBc Left 3; mkBc Right 0; mkBc Right 1; mkBc Right 2; mkBc Right 3].

(** chebyshev/bases.py 1701-1718 class Phi6, bc as in its __init__ *)
Definition chebyshev_Phi6 : stencil_class :=
  mkClass "chebyshev_Phi6"%string
    [(0%nat, SFun (fun n => (1 / (((((((32 * PI) * (n + 1)) * (n + 2)) * (n + 3)) * (n + 4)) * (n + 5)) * (n + 6)))));
     (2%nat, SFun (fun n => ((- 3) / (((((((16 * PI) * (n + 1)) * (n + 3)) * (n + 4)) * (n + 5)) * (n + 6)) * (n + 7)))));
     (4%nat, SFun (fun n => (15 / (((((((32 * PI) * (n + 2)) * (n + 3)) * (n + 5)) * (n + 6)) * (n + 7)) * (n + 8)))));
     (6%nat, SFun (fun n => ((- 5) / (((((((8 * PI) * (n + 3)) * (n + 4)) * (n + 5)) * (n + 7)) * (n + 8)) * (n + 9)))));
     (8%nat, SFun (fun n => (15 / (((((((32 * PI) * (n + 4)) * (n + 5)) * (n + 6)) * (n + 7)) * (n + 9)) * (n + 10)))));
     (10%nat, SFun (fun n => ((- 3) / (((((((16 * PI) * (n + 5)) * (n + 6)) * (n + 7)) * (n + 8)) * (n + 9)) * (n + 11)))));
     (12%nat, SFun (fun n => (1 / (((((((32 * PI) * (n + 6)) * (n + 7)) * (n + 8)) * (n + 9)) * (n + 10)) * (n + 11)))))]
    [mkBc Left 0; mkBc Left 1; mkBc Left 2; mkBc Left 3; mkBc Left 4; mkBc Left 5; mkBc Right 0; mkBc Right 1; mkBc Right 2; mkBc Right 3; mkBc Right 4; mkBc Right 5].

(** chebyshev/bases.py 1797-1797 class UpperDirichlet, bc as in its __init__ *)
Definition chebyshev_UpperDirichlet : stencil_class :=
  mkClass "chebyshev_UpperDirichlet"%string
    [(0%nat, SConst (1));
     (1%nat, SConst ((- 1)))]
    [mkBc Right 0].

(** chebyshev/bases.py 1876-1876 class LowerDirichlet, bc as in its __init__ *)
Definition chebyshev_LowerDirichlet : stencil_class :=
  mkClass "chebyshev_LowerDirichlet"%string
    [(0%nat, SConst (1));
     (1%nat, SConst (1))]
    [mkBc Left 0].

(** chebyshev/bases.py 2043-2047 class DirichletNeumann, bc as in its __init__ *)
Definition chebyshev_DirichletNeumann : stencil_class :=
  mkClass "chebyshev_DirichletNeumann"%string
    [(0%nat, SConst (1));
     (1%nat, SFun (fun n => ((4 * (n + 1)) / (((2 * (n ^ 2)) + (6 * n)) + 5))));
     (2%nat, SFun (fun n => ((- (((2 * (n ^ 2)) + (2 * n)) + 1)) / (((2 * (n ^ 2)) + (6 * n)) + 5))))]
    [mkBc Left 0; mkBc Right 1].

(** chebyshev/bases.py 2132-2136 class NeumannDirichlet, bc as in its __init__ *)
Definition chebyshev_NeumannDirichlet : stencil_class :=
  mkClass "chebyshev_NeumannDirichlet"%string
    [(0%nat, SConst (1));
     (1%nat, SFun (fun n => ((- ((4 * n) + 4)) / (((2 * (n ^ 2)) + (6 * n)) + 5))));
     (2%nat, SFun (fun n => ((- (((2 * (n ^ 2)) + (2 * n)) + 1)) / (((2 * (n ^ 2)) + (6 * n)) + 5))))]
    [mkBc Left 1; mkBc Right 0].

(** chebyshev/bases.py 2220-2224 class UpperDirichletNeumann, bc as in its __init__ *)
Definition chebyshev_UpperDirichletNeumann : stencil_class :=
  mkClass "chebyshev_UpperDirichletNeumann"%string
    [(0%nat, SConst (1));
     (1%nat, SFun (fun n => ((- ((4 * n) + 4)) / ((2 * n) + 3))));
     (2%nat, SFun (fun n => (((2 * n) + 1) / ((2 * n) + 3))))]
    [mkBc Right 0; mkBc Right 1].

(** chebyshev/bases.py 2308-2312 class LowerDirichletNeumann, bc as in its __init__ *)
Definition chebyshev_LowerDirichletNeumann : stencil_class :=
  mkClass "chebyshev_LowerDirichletNeumann"%string
    [(0%nat, SConst (1));
     (1%nat, SFun (fun n => ((4 * (n + 1)) / ((2 * n) + 3))));
     (2%nat, SFun (fun n => (((2 * n) + 1) / ((2 * n) + 3))))]
    [mkBc Left 0; mkBc Left 1].

(** chebyshev/bases.py 2402-2407 class Compact3, bc as in its __init__ *)
Definition chebyshev_Compact3 : stencil_class :=
  mkClass "chebyshev_Compact3"%string
    [(0%nat, SConst (1));
     (2%nat, SFun (fun n => ((- ((3 * n) + 6)) / (n + 4))));
     (4%nat, SFun (fun n => ((3 * (n + 1)) / (n + 5))));
     (6%nat, SFun (fun n => (((- (n + 1)) * (n + 2)) / ((n + 4) * (n + 5)))))]
    [mkBc Left 0; mkBc Left 1; mkBc Left 2; mkBc Right 0; mkBc Right 1; mkBc Right 2].

(** chebyshev/bases.py 2499-2505 class Compact4, bc as in its __init__ *)
Definition chebyshev_Compact4 : stencil_class :=
  mkClass "chebyshev_Compact4"%string
    [(0%nat, SConst (1));
     (2%nat, SFun (fun n => ((- ((4 * n) + 8)) / (n + 5))));
     (4%nat, SFun (fun n => (((6 * (n + 1)) * (n + 4)) / ((n + 5) * (n + 6)))));
     (6%nat, SFun (fun n => ((((- 4) * (n + 1)) * (n + 2)) / ((n + 5) * (n + 7)))));
     (8%nat, SFun (fun n => ((((n + 1) * (n + 2)) * (n + 3)) / (((n + 5) * (n + 6)) * (n + 7)))))]
    [mkBc Left 0; mkBc Left 1; mkBc Left 2; mkBc Left 3; mkBc Right 0; mkBc Right 1; mkBc Right 2; mkBc Right 3].

(** legendre/bases.py 374-374 class ShenDirichlet, bc as in its __init__ *)
Definition legendre_ShenDirichlet : stencil_class :=
  mkClass "legendre_ShenDirichlet"%string
    [(0%nat, SConst (1));
     (2%nat, SConst ((- 1)))]
    [mkBc Left 0; mkBc Right 0].

(** legendre/bases.py 376-376 class ShenDirichlet (is_scaled), bc as in its __init__ *)
Definition legendre_ShenDirichlet_scaled : stencil_class :=
  mkClass "legendre_ShenDirichlet_scaled"%string
    [(0%nat, SFun (fun n => (1 / (sqrt ((4 * n) + 6)))));
     (2%nat, SFun (fun n => ((- 1) / (sqrt ((4 * n) + 6)))))]
    [mkBc Left 0; mkBc Right 0].

(** legendre/bases.py 438-438 class Phi1, bc as in its __init__ *)
Definition legendre_Phi1 : stencil_class :=
  mkClass "legendre_Phi1"%string
    [(0%nat, SConst ((1 / 2)));
     (2%nat, SConst ((- (1 / 2))))]
    [mkBc Left 0; mkBc Right 0].

(** legendre/bases.py 502-502 class ShenNeumann, bc as in its __init__ *)
Definition legendre_ShenNeumann : stencil_class :=
  mkClass "legendre_ShenNeumann"%string
    [(0%nat, SConst (1));
     (2%nat, SFun (fun n => (((- n) * (n + 1)) / (((n ^ 2) + (5 * n)) + 6))))]
    [mkBc Left 1; mkBc Right 1].

(** legendre/bases.py 564-564 class ShenBiharmonic, bc as in its __init__ *)
Definition legendre_ShenBiharmonic : stencil_class :=
  mkClass "legendre_ShenBiharmonic"%string
    [(0%nat, SConst (1));
     (2%nat, SFun (fun n => ((- ((4 * n) + 10)) / ((2 * n) + 7))));
     (4%nat, SFun (fun n => (((2 * n) + 3) / ((2 * n) + 7))))]
    [mkBc Left 0; mkBc Left 1; mkBc Right 0; mkBc Right 1].

(** legendre/bases.py 636-636 class Phi2, bc as in its __init__ *)
Definition legendre_Phi2 : stencil_class :=
  mkClass "legendre_Phi2"%string
    [(0%nat, SFun (fun n => (1 / (2 * ((2 * n) + 3)))));
     (2%nat, SFun (fun n => (((- ((2 * n) + 5)) / ((2 * n) + 7)) / ((2 * n) + 3))));
     (4%nat, SFun (fun n => (1 / (2 * ((2 * n) + 7)))))]
    [mkBc Left 0; mkBc Left 1; mkBc Right 0; mkBc Right 1].

(** legendre/bases.py 699-704 class Phi3, bc as in its __init__ *)
Definition legendre_Phi3 : stencil_class :=
  mkClass "legendre_Phi3"%string
    [(0%nat, SFun (fun n => (1 / (2 * (((4 * (n ^ 2)) + (16 * n)) + 15)))));
     (2%nat, SFun (fun n => ((- 3) / (((8 * (n ^ 2)) + (48 * n)) + 54))));
     (4%nat, SFun (fun n => (3 / (2 * (((4 * (n ^ 2)) + (32 * n)) + 55)))));
     (6%nat, SFun (fun n => ((- 1) / (((8 * (n ^ 2)) + (80 * n)) + 198))))]
    [mkBc Left 0; mkBc Left 1; mkBc Left 2; mkBc Right 0; mkBc Right 1; mkBc Right 2].

(** legendre/bases.py 771-777 class Phi4, bc as in its __init__ *)
Definition legendre_Phi4 : stencil_class :=
  mkClass "legendre_Phi4"%string
    [(0%nat, SFun (fun n => (1 / (2 * ((((8 * (n ^ 3)) + (60 * (n ^ 2))) + (142 * n)) + 105)))));
     (2%nat, SFun (fun n => ((- 2) / ((((8 * (n ^ 3)) + (84 * (n ^ 2))) + (262 * n)) + 231))));
     (4%nat, SFun (fun n => ((3 * ((2 * n) + 9)) / (((((2 * n) + 5) * ((2 * n) + 7)) * ((2 * n) + 11)) * ((2 * n) + 13)))));
     (6%nat, SFun (fun n => ((- 2) / ((((8 * (n ^ 3)) + (132 * (n ^ 2))) + (694 * n)) + 1155))));
     (8%nat, SFun (fun n => (1 / (2 * ((((8 * (n ^ 3)) + (156 * (n ^ 2))) + (1006 * n)) + 2145)))))]
    [mkBc Left 0; mkBc Left 1; mkBc Left 2; mkBc Left 3; mkBc Right 0; mkBc Right 1; mkBc Right 2; mkBc Right 3].

(** legendre/bases.py 837-845 class Phi6, bc as in its __init__ *)
Definition legendre_Phi6 : stencil_class :=
  mkClass "legendre_Phi6"%string
    [(0%nat, SFun (fun n => (1 / (((((2 * ((2 * n) + 3)) * ((2 * n) + 5)) * ((2 * n) + 7)) * ((2 * n) + 9)) * ((2 * n) + 11)))));
     (2%nat, SFun (fun n => ((- 3) / ((((((2 * n) + 3) * ((2 * n) + 7)) * ((2 * n) + 9)) * ((2 * n) + 11)) * ((2 * n) + 15)))));
     (4%nat, SFun (fun n => (15 / (((((2 * ((2 * n) + 5)) * ((2 * n) + 7)) * ((2 * n) + 11)) * ((2 * n) + 15)) * ((2 * n) + 17)))));
     (6%nat, SFun (fun n => (((- 10) * ((2 * n) + 13)) / (((((((2 * n) + 7) * ((2 * n) + 9)) * ((2 * n) + 11)) * ((2 * n) + 15)) * ((2 * n) + 17)) * ((2 * n) + 19)))));
     (8%nat, SFun (fun n => (15 / (((((2 * ((2 * n) + 9)) * ((2 * n) + 11)) * ((2 * n) + 15)) * ((2 * n) + 19)) * ((2 * n) + 21)))));
     (10%nat, SFun (fun n => ((- 3) / ((((((2 * n) + 11) * ((2 * n) + 15)) * ((2 * n) + 17)) * ((2 * n) + 19)) * ((2 * n) + 23)))));
     (12%nat, SFun (fun n => (1 / (((((2 * ((2 * n) + 15)) * ((2 * n) + 17)) * ((2 * n) + 19)) * ((2 * n) + 21)) * ((2 * n) + 23)))))]
    [mkBc Left 0; mkBc Left 1; mkBc Left 2; mkBc Left 3; mkBc Left 4; mkBc Left 5; mkBc Right 0; mkBc Right 1; mkBc Right 2; mkBc Right 3; mkBc Right 4; mkBc Right 5].

(** legendre/bases.py 921-927 class BeamFixedFree, bc as in its __init__ *)
Definition legendre_BeamFixedFree : stencil_class :=
  mkClass "legendre_BeamFixedFree"%string
    [(0%nat, SConst (1));
     (1%nat, SFun (fun n => ((4 * ((2 * n) + 3)) / (((n ^ 2) + (6 * n)) + 9))));
     (2%nat, SFun (fun n => ((2 * ((((((- 2) * (n ^ 4)) - (17 * (n ^ 3))) - (28 * (n ^ 2))) + (17 * n)) + 30)) / (((((2 * (n ^ 4)) + (27 * (n ^ 3))) + (136 * (n ^ 2))) + (303 * n)) + 252))));
     (3%nat, SFun (fun n => ((- ((((8 * (n ^ 3)) + (28 * (n ^ 2))) + (32 * n)) + 12)) / (((((n ^ 4) + (14 * (n ^ 3))) + (73 * (n ^ 2))) + (168 * n)) + 144))));
     (4%nat, SFun (fun n => (((((((2 * (n ^ 5)) + (15 * (n ^ 4))) + (44 * (n ^ 3))) + (63 * (n ^ 2))) + (44 * n)) + 12) / ((((((2 * (n ^ 5)) + (35 * (n ^ 4))) + (244 * (n ^ 3))) + (847 * (n ^ 2))) + (1464 * n)) + 1008))))]
    [mkBc Left 0; mkBc Left 1; mkBc Right 2; mkBc Right 3].

(** legendre/bases.py 986-986 class UpperDirichlet, bc as in its __init__ *)
Definition legendre_UpperDirichlet : stencil_class :=
  mkClass "legendre_UpperDirichlet"%string
    [(0%nat, SConst (1));
     (1%nat, SConst ((- 1)))]
    [mkBc Right 0].

(** legendre/bases.py 1137-1137 class DirichletNeumann, bc as in its __init__ *)
Definition legendre_DirichletNeumann : stencil_class :=
  mkClass "legendre_DirichletNeumann"%string
    [(0%nat, SConst (1));
     (1%nat, SFun (fun n => (((2 * n) + 3) / (((n ^ 2) + (4 * n)) + 4))));
     (2%nat, SFun (fun n => ((- (((n ^ 2) + (2 * n)) + 1)) / (((n ^ 2) + (4 * n)) + 4))))]
    [mkBc Left 0; mkBc Right 1].

(** legendre/bases.py 1197-1197 class LowerDirichlet, bc as in its __init__ *)
Definition legendre_LowerDirichlet : stencil_class :=
  mkClass "legendre_LowerDirichlet"%string
    [(0%nat, SConst (1));
     (1%nat, SConst (1))]
    [mkBc Left 0].

(** legendre/bases.py 1261-1261 class NeumannDirichlet, bc as in its __init__ *)
Definition legendre_NeumannDirichlet : stencil_class :=
  mkClass "legendre_NeumannDirichlet"%string
    [(0%nat, SConst (1));
     (1%nat, SFun (fun n => ((- ((2 * n) + 3)) / (((n ^ 2) + (4 * n)) + 4))));
     (2%nat, SFun (fun n => ((- (((n ^ 2) + (2 * n)) + 1)) / (((n ^ 2) + (4 * n)) + 4))))]
    [mkBc Left 1; mkBc Right 0].

(** legendre/bases.py 1330-1330 class UpperDirichletNeumann, bc as in its __init__ *)
Definition legendre_UpperDirichletNeumann : stencil_class :=
  mkClass "legendre_UpperDirichletNeumann"%string
    [(0%nat, SConst (1));
     (1%nat, SFun (fun n => ((- ((2 * n) + 3)) / (n + 2))));
     (2%nat, SFun (fun n => ((n + 1) / (n + 2))))]
    [mkBc Right 0; mkBc Right 1].

(** legendre/bases.py 1392-1397 class Compact3, bc as in its __init__ *)
Definition legendre_Compact3 : stencil_class :=
  mkClass "legendre_Compact3"%string
    [(0%nat, SConst (1));
     (2%nat, SFun (fun n => ((- ((6 * n) + 15)) / ((2 * n) + 9))));
     (4%nat, SFun (fun n => ((3 * ((2 * n) + 3)) / ((2 * n) + 11))));
     (6%nat, SFun (fun n => (((- ((2 * n) + 3)) * ((2 * n) + 5)) / (((2 * n) + 9) * ((2 * n) + 11)))))]
    [mkBc Left 0; mkBc Left 1; mkBc Left 2; mkBc Right 0; mkBc Right 1; mkBc Right 2].

(** chebyshevu/bases.py 406-409 class Phi1, bc as in its __init__ *)
Definition chebyshevu_Phi1 : stencil_class :=
  mkClass "chebyshevu_Phi1"%string
    [(0%nat, SFun (fun n => (1 / (PI * (n + 1)))));
     (2%nat, SFun (fun n => ((- 1) / (PI * (n + 3)))))]
    [mkBc Left 0; mkBc Right 0].

(** chebyshevu/bases.py 411-414 class Phi1 (is_scaled), bc as in its __init__ *)
Definition chebyshevu_Phi1_scaled : stencil_class :=
  mkClass "chebyshevu_Phi1_scaled"%string
    [(0%nat, SFun (fun n => (1 / ((PI * (n + 1)) * (n + 2)))));
     (2%nat, SFun (fun n => ((- 1) / ((PI * (n + 3)) * (n + 2)))))]
    [mkBc Left 0; mkBc Right 0].

(** chebyshevu/bases.py 489-493 class Phi2, bc as in its __init__ *)
Definition chebyshevu_Phi2 : stencil_class :=
  mkClass "chebyshevu_Phi2"%string
    [(0%nat, SFun (fun n => (1 / (((2 * PI) * (n + 1)) * (n + 2)))));
     (2%nat, SFun (fun n => ((- 1) / ((PI * (n + 2)) * (n + 4)))));
     (4%nat, SFun (fun n => (1 / (((2 * PI) * (n + 4)) * (n + 5)))))]
    [mkBc Left 0; mkBc Left 1; mkBc Right 0; mkBc Right 1].

(** chebyshevu/bases.py 495-499 class Phi2 (is_scaled), bc as in its __init__ *)
Definition chebyshevu_Phi2_scaled : stencil_class :=
  mkClass "chebyshevu_Phi2_scaled"%string
    [(0%nat, SFun (fun n => (1 / ((((2 * PI) * (n + 1)) * (n + 2)) * (n + 3)))));
     (2%nat, SFun (fun n => ((- 1) / (((PI * (n + 2)) * (n + 4)) * (n + 3)))));
     (4%nat, SFun (fun n => (1 / ((((2 * PI) * (n + 4)) * (n + 5)) * (n + 3)))))]
    [mkBc Left 0; mkBc Left 1; mkBc Right 0; mkBc Right 1].

(** chebyshevu/bases.py 566-571 class Phi3, bc as in its __init__ *)
Definition chebyshevu_Phi3 : stencil_class :=
  mkClass "chebyshevu_Phi3"%string
    [(0%nat, SFun (fun n => (1 / ((((4 * PI) * (n + 1)) * (n + 2)) * (n + 3)))));
     (2%nat, SFun (fun n => ((- 3) / ((((4 * PI) * (n + 2)) * (n + 3)) * (n + 5)))));
     (4%nat, SFun (fun n => (3 / ((((4 * PI) * (n + 3)) * (n + 5)) * (n + 6)))));
     (6%nat, SFun (fun n => ((- 1) / ((((4 * PI) * (n + 5)) * (n + 6)) * (n + 7)))))]
    [mkBc Left 0; mkBc Left 1; mkBc Left 2; mkBc Right 0; mkBc Right 1; mkBc Right 2].

(** chebyshevu/bases.py 638-644 class Phi4, bc as in its __init__ *)
Definition chebyshevu_Phi4 : stencil_class :=
  mkClass "chebyshevu_Phi4"%string
    [(0%nat, SFun (fun n => (1 / (((((8 * PI) * (n + 1)) * (n + 2)) * (n + 3)) * (n + 4)))));
     (2%nat, SFun (fun n => ((- 1) / (((((2 * PI) * (n + 2)) * (n + 3)) * (n + 4)) * (n + 6)))));
     (4%nat, SFun (fun n => (3 / (((((4 * PI) * (n + 3)) * (n + 4)) * (n + 6)) * (n + 7)))));
     (6%nat, SFun (fun n => ((- 1) / (((((2 * PI) * (n + 4)) * (n + 6)) * (n + 7)) * (n + 8)))));
     (8%nat, SFun (fun n => (1 / (((((8 * PI) * (n + 6)) * (n + 7)) * (n + 8)) * (n + 9)))))]
    [mkBc Left 0; mkBc Left 1; mkBc Left 2; mkBc Left 3; mkBc Right 0; mkBc Right 1; mkBc Right 2; mkBc Right 3].

(** chebyshevu/bases.py 712-720 class Phi6, bc as in its __init__ *)
Definition chebyshevu_Phi6 : stencil_class :=
  mkClass "chebyshevu_Phi6"%string
    [(0%nat, SFun (fun n => (1 / (((((((32 * PI) * (n + 1)) * (n + 2)) * (n + 3)) * (n + 4)) * (n + 5)) * (n + 6)))));
     (2%nat, SFun (fun n => ((- 3) / (((((((16 * PI) * (n + 2)) * (n + 3)) * (n + 4)) * (n + 5)) * (n + 6)) * (n + 8)))));
     (4%nat, SFun (fun n => (15 / (((((((32 * PI) * (n + 3)) * (n + 4)) * (n + 5)) * (n + 6)) * (n + 8)) * (n + 9)))));
     (6%nat, SFun (fun n => ((- 5) / (((((((8 * PI) * (n + 4)) * (n + 5)) * (n + 6)) * (n + 8)) * (n + 9)) * (n + 10)))));
     (8%nat, SFun (fun n => (15 / (((((((32 * PI) * (n + 5)) * (n + 6)) * (n + 8)) * (n + 9)) * (n + 10)) * (n + 11)))));
     (10%nat, SFun (fun n => ((- 3) / (((((((16 * PI) * (n + 6)) * (n + 8)) * (n + 9)) * (n + 10)) * (n + 11)) * (n + 12)))));
     (12%nat, SFun (fun n => (1 / (((((((32 * PI) * (n + 8)) * (n + 9)) * (n + 10)) * (n + 11)) * (n + 12)) * (n + 13)))))]
    [mkBc Left 0; mkBc Left 1; mkBc Left 2; mkBc Left 3; mkBc Left 4; mkBc Left 5; mkBc Right 0; mkBc Right 1; mkBc Right 2; mkBc Right 3; mkBc Right 4; mkBc Right 5].

(** chebyshevu/bases.py 794-794 class CompactDirichlet, bc as in its __init__ *)
Definition chebyshevu_CompactDirichlet : stencil_class :=
  mkClass "chebyshevu_CompactDirichlet"%string
    [(0%nat, SConst (1));
     (2%nat, SFun (fun n => ((- (n + 1)) / (n + 3))))]
    [mkBc Left 0; mkBc Right 0].

(** chebyshevu/bases.py 796-796 class CompactDirichlet (is_scaled), bc as in its __init__ *)
Definition chebyshevu_CompactDirichlet_scaled : stencil_class :=
  mkClass "chebyshevu_CompactDirichlet_scaled"%string
    [(0%nat, SFun (fun n => (1 / (n + 1))));
     (2%nat, SFun (fun n => ((- 1) / (n + 3))))]
    [mkBc Left 0; mkBc Right 0].

(** chebyshevu/bases.py 859-859 class CompactNeumann, bc as in its __init__ *)
Definition chebyshevu_CompactNeumann : stencil_class :=
  mkClass "chebyshevu_CompactNeumann"%string
    [(0%nat, SConst (1));
     (2%nat, SFun (fun n => (((- n) * (n + 1)) / ((n + 3) * (n + 4)))))]
    [mkBc Left 1; mkBc Right 1].

(** chebyshevu/bases.py 918-918 class UpperDirichlet, bc as in its __init__ *)
Definition chebyshevu_UpperDirichlet : stencil_class :=
  mkClass "chebyshevu_UpperDirichlet"%string
    [(0%nat, SConst (1));
     (1%nat, SFun (fun n => ((- (n + 1)) / (n + 2))))]
    [mkBc Right 0].

(** chebyshevu/bases.py 976-976 class LowerDirichlet, bc as in its __init__ *)
Definition chebyshevu_LowerDirichlet : stencil_class :=
  mkClass "chebyshevu_LowerDirichlet"%string
    [(0%nat, SConst (1));
     (1%nat, SFun (fun n => ((n + 1) / (n + 2))))]
    [mkBc Right 0].

(** chebyshevu/bases.py 1049-1053 class CompactBiharmonic, bc as in its __init__ *)
Definition chebyshevu_CompactBiharmonic : stencil_class :=
  mkClass "chebyshevu_CompactBiharmonic"%string
    [(0%nat, SConst (1));
     (2%nat, SFun (fun n => ((- ((2 * n) + 2)) / (n + 4))));
     (4%nat, SFun (fun n => (((n + 1) * (n + 2)) / ((n + 4) * (n + 5)))))]
    [mkBc Left 0; mkBc Left 1; mkBc Right 0; mkBc Right 1].

(** chebyshevu/bases.py 1115-1120 class Compact3, bc as in its __init__ *)
Definition chebyshevu_Compact3 : stencil_class :=
  mkClass "chebyshevu_Compact3"%string
    [(0%nat, SConst (1));
     (2%nat, SFun (fun n => (((- 3) * (n + 1)) / (n + 5))));
     (4%nat, SFun (fun n => (((3 * (n + 1)) * (n + 2)) / ((n + 5) * (n + 6)))));
     (6%nat, SFun (fun n => ((((- (n + 1)) * (n + 2)) * (n + 3)) / (((n + 5) * (n + 6)) * (n + 7)))))]
    [mkBc Left 0; mkBc Left 1; mkBc Left 2; mkBc Right 0; mkBc Right 1; mkBc Right 2].

(** ultraspherical/bases.py 294-297 class Phi1, bc as in its __init__ *)
Definition ultraspherical_Phi1 (G : R -> R) (a : R) : stencil_class :=
  mkClass "ultraspherical_Phi1"%string
    [(0%nat, SFun (fun n => ((G (((2 * a) + n) + 2)) / (((2 * (Rpower 2 (2 * a))) * ((G (a + 1)) ^ 2)) * (G (n + 2))))));
     (2%nat, SFun (fun n => ((- (G (((2 * a) + n) + 2))) / (((2 * (Rpower 2 (2 * a))) * ((G (a + 1)) ^ 2)) * (G (n + 2))))))]
    [mkBc Left 0; mkBc Right 0].

(** ultraspherical/bases.py 369-373 class Phi2, bc as in its __init__ *)
Definition ultraspherical_Phi2 (G : R -> R) (a : R) : stencil_class :=
  mkClass "ultraspherical_Phi2"%string
    [(0%nat, SFun (fun n => ((G (((2 * a) + n) + 3)) / ((((2 * (Rpower 2 (2 * a))) * (((2 * a) + (2 * n)) + 3)) * ((G (a + 1)) ^ 2)) * (G (n + 3))))));
     (2%nat, SFun (fun n => (((- (((2 * a) + (2 * n)) + 5)) * (G (((2 * a) + n) + 3))) / (((((Rpower 4 a) * (((2 * a) + (2 * n)) + 3)) * (((2 * a) + (2 * n)) + 7)) * ((G (a + 1)) ^ 2)) * (G (n + 3))))));
     (4%nat, SFun (fun n => ((G (((2 * a) + n) + 3)) / ((((2 * (Rpower 2 (2 * a))) * (((2 * a) + (2 * n)) + 7)) * ((G (a + 1)) ^ 2)) * (G (n + 3))))))]
    [mkBc Left 0; mkBc Left 1; mkBc Right 0; mkBc Right 1].

(** ultraspherical/bases.py 444-449 class Phi3, bc as in its __init__ *)
Definition ultraspherical_Phi3 (G : R -> R) (a : R) : stencil_class :=
  mkClass "ultraspherical_Phi3"%string
    [(0%nat, SFun (fun n => ((G (((2 * a) + n) + 4)) / (((((2 * (Rpower 2 (2 * a))) * (((2 * a) + (2 * n)) + 3)) * (((2 * a) + (2 * n)) + 5)) * ((G (a + 1)) ^ 2)) * (G (n + 4))))));
     (2%nat, SFun (fun n => (((- 3) * (G (((2 * a) + n) + 4))) / (((((2 * (Rpower 2 (2 * a))) * (((2 * a) + (2 * n)) + 3)) * (((2 * a) + (2 * n)) + 9)) * ((G (a + 1)) ^ 2)) * (G (n + 4))))));
     (4%nat, SFun (fun n => ((3 * (G (((2 * a) + n) + 4))) / (((((2 * (Rpower 2 (2 * a))) * (((2 * a) + (2 * n)) + 5)) * (((2 * a) + (2 * n)) + 11)) * ((G (a + 1)) ^ 2)) * (G (n + 4))))));
     (6%nat, SFun (fun n => ((- (G (((2 * a) + n) + 4))) / (((((2 * (Rpower 2 (2 * a))) * (((2 * a) + (2 * n)) + 9)) * (((2 * a) + (2 * n)) + 11)) * ((G (a + 1)) ^ 2)) * (G (n + 4))))))]
    [mkBc Left 0; mkBc Left 1; mkBc Left 2; mkBc Right 0; mkBc Right 1; mkBc Right 2].

(** ultraspherical/bases.py 523-529 class Phi4, bc as in its __init__ *)
Definition ultraspherical_Phi4 (G : R -> R) (a : R) : stencil_class :=
  mkClass "ultraspherical_Phi4"%string
    [(0%nat, SFun (fun n => ((G (((2 * a) + n) + 5)) / ((((((2 * (Rpower 2 (2 * a))) * (((2 * a) + (2 * n)) + 3)) * (((2 * a) + (2 * n)) + 5)) * (((2 * a) + (2 * n)) + 7)) * ((G (a + 1)) ^ 2)) * (G (n + 5))))));
     (2%nat, SFun (fun n => (((- (Rpower 2 (1 - (2 * a)))) * (G (((2 * a) + n) + 5))) / (((((((2 * a) + (2 * n)) + 3) * (((2 * a) + (2 * n)) + 7)) * (((2 * a) + (2 * n)) + 11)) * ((G (a + 1)) ^ 2)) * (G (n + 5))))));
     (4%nat, SFun (fun n => (((3 * (((2 * a) + (2 * n)) + 9)) * (G (((2 * a) + n) + 5))) / (((((((Rpower 4 a) * (((2 * a) + (2 * n)) + 5)) * (((2 * a) + (2 * n)) + 7)) * (((2 * a) + (2 * n)) + 11)) * (((2 * a) + (2 * n)) + 13)) * ((G (a + 1)) ^ 2)) * (G (n + 5))))));
     (6%nat, SFun (fun n => (((- (Rpower 2 (1 - (2 * a)))) * (G (((2 * a) + n) + 5))) / (((((((2 * a) + (2 * n)) + 7) * (((2 * a) + (2 * n)) + 11)) * (((2 * a) + (2 * n)) + 15)) * ((G (a + 1)) ^ 2)) * (G (n + 5))))));
     (8%nat, SFun (fun n => ((G (((2 * a) + n) + 5)) / ((((((2 * (Rpower 2 (2 * a))) * (((2 * a) + (2 * n)) + 11)) * (((2 * a) + (2 * n)) + 13)) * (((2 * a) + (2 * n)) + 15)) * ((G (a + 1)) ^ 2)) * (G (n + 5))))))]
    [mkBc Left 0; mkBc Left 1; mkBc Left 2; mkBc Left 3; mkBc Right 0; mkBc Right 1; mkBc Right 2; mkBc Right 3].

(** ultraspherical/bases.py 605-613 class Phi6, bc as in its __init__ *)
Definition ultraspherical_Phi6 (G : R -> R) (a : R) : stencil_class :=
  mkClass "ultraspherical_Phi6"%string
    [(0%nat, SFun (fun n => ((G (((2 * a) + n) + 7)) / ((((((((2 * (Rpower 2 (2 * a))) * (((2 * a) + (2 * n)) + 3)) * (((2 * a) + (2 * n)) + 5)) * (((2 * a) + (2 * n)) + 7)) * (((2 * a) + (2 * n)) + 9)) * (((2 * a) + (2 * n)) + 11)) * ((G (a + 1)) ^ 2)) * (G (n + 7))))));
     (2%nat, SFun (fun n => (((- 3) * (G (((2 * a) + n) + 7))) / ((((((((Rpower 4 a) * (((2 * a) + (2 * n)) + 3)) * (((2 * a) + (2 * n)) + 7)) * (((2 * a) + (2 * n)) + 9)) * (((2 * a) + (2 * n)) + 11)) * (((2 * a) + (2 * n)) + 15)) * ((G (a + 1)) ^ 2)) * (G (n + 7))))));
     (4%nat, SFun (fun n => ((15 * (G (((2 * a) + n) + 7))) / ((((((((2 * (Rpower 2 (2 * a))) * (((2 * a) + (2 * n)) + 5)) * (((2 * a) + (2 * n)) + 7)) * (((2 * a) + (2 * n)) + 11)) * (((2 * a) + (2 * n)) + 15)) * (((2 * a) + (2 * n)) + 17)) * ((G (a + 1)) ^ 2)) * (G (n + 7))))));
     (6%nat, SFun (fun n => ((((- 10) * (((2 * a) + (2 * n)) + 13)) * (G (((2 * a) + n) + 7))) / (((((((((Rpower 2 (2 * a)) * (((2 * a) + (2 * n)) + 7)) * (((2 * a) + (2 * n)) + 9)) * (((2 * a) + (2 * n)) + 11)) * (((2 * a) + (2 * n)) + 15)) * (((2 * a) + (2 * n)) + 17)) * (((2 * a) + (2 * n)) + 19)) * ((G (a + 1)) ^ 2)) * (G (n + 7))))));
     (8%nat, SFun (fun n => ((15 * (G (((2 * a) + n) + 7))) / ((((((((2 * (Rpower 2 (2 * a))) * (((2 * a) + (2 * n)) + 9)) * (((2 * a) + (2 * n)) + 11)) * (((2 * a) + (2 * n)) + 15)) * (((2 * a) + (2 * n)) + 19)) * (((2 * a) + (2 * n)) + 21)) * ((G (a + 1)) ^ 2)) * (G (n + 7))))));
     (10%nat, SFun (fun n => (((- 3) * (G (((2 * a) + n) + 7))) / ((((((((Rpower 4 a) * (((2 * a) + (2 * n)) + 11)) * (((2 * a) + (2 * n)) + 15)) * (((2 * a) + (2 * n)) + 17)) * (((2 * a) + (2 * n)) + 19)) * (((2 * a) + (2 * n)) + 23)) * ((G (a + 1)) ^ 2)) * (G (n + 7))))));
     (12%nat, SFun (fun n => ((G (((2 * a) + n) + 7)) / ((((((((2 * (Rpower 2 (2 * a))) * (((2 * a) + (2 * n)) + 15)) * (((2 * a) + (2 * n)) + 17)) * (((2 * a) + (2 * n)) + 19)) * (((2 * a) + (2 * n)) + 21)) * (((2 * a) + (2 * n)) + 23)) * ((G (a + 1)) ^ 2)) * (G (n + 7))))))]
    [mkBc Left 0; mkBc Left 1; mkBc Left 2; mkBc Left 3; mkBc Left 4; mkBc Left 5; mkBc Right 0; mkBc Right 1; mkBc Right 2; mkBc Right 3; mkBc Right 4; mkBc Right 5].

(** ultraspherical/bases.py 674-674 class CompactDirichlet, bc as in its __init__ *)
Definition ultraspherical_CompactDirichlet (a : R) : stencil_class :=
  mkClass "ultraspherical_CompactDirichlet"%string
    [(0%nat, SConst (1));
     (2%nat, SConst ((- 1)))]
    [mkBc Left 0; mkBc Right 0].

(** ultraspherical/bases.py 739-739 class CompactNeumann, bc as in its __init__ *)
Definition ultraspherical_CompactNeumann (a : R) : stencil_class :=
  mkClass "ultraspherical_CompactNeumann"%string
    [(0%nat, SConst (1));
     (2%nat, SFun (fun n => ((n * ((((- 2) * a) - n) - 1)) / ((((((2 * a) * n) + (4 * a)) + (n ^ 2)) + (5 * n)) + 6))))]
    [mkBc Left 1; mkBc Right 1].

(** ultraspherical/bases.py 800-800 class UpperDirichlet, bc as in its __init__ *)
Definition ultraspherical_UpperDirichlet (a : R) : stencil_class :=
  mkClass "ultraspherical_UpperDirichlet"%string
    [(0%nat, SConst (1));
     (1%nat, SConst ((- 1)))]
    [mkBc Right 0].

(** ultraspherical/bases.py 862-862 class LowerDirichlet, bc as in its __init__ *)
Definition ultraspherical_LowerDirichlet (a : R) : stencil_class :=
  mkClass "ultraspherical_LowerDirichlet"%string
    [(0%nat, SConst (1));
     (1%nat, SConst (1))]
    [mkBc Right 0].

(** ultraspherical/bases.py 935-939 class CompactBiharmonic, bc as in its __init__ *)
Definition ultraspherical_CompactBiharmonic (a : R) : stencil_class :=
  mkClass "ultraspherical_CompactBiharmonic"%string
    [(0%nat, SConst (1));
     (2%nat, SFun (fun n => ((- (((4 * a) + (4 * n)) + 10)) / (((2 * a) + (2 * n)) + 7))));
     (4%nat, SFun (fun n => ((((2 * a) + (2 * n)) + 3) / (((2 * a) + (2 * n)) + 7))))]
    [mkBc Left 0; mkBc Left 1; mkBc Right 0; mkBc Right 1].

(** jacobi/bases.py 360-363 class Phi1, bc as in its __init__ *)
Definition jacobi_Phi1 (G : R -> R) (a b : R) : stencil_class :=
  mkClass "jacobi_Phi1"%string
    [(0%nat, SFun (fun n => ((((Rpower 2 ((- a) - b)) * (G (n + 1))) * (G (((a + b) + n) + 2))) / (((((a + b) + (2 * n)) + 2) * (G ((a + n) + 1))) * (G ((b + n) + 1))))));
     (2%nat, SFun (fun n => ((((- (Rpower 2 ((- a) - b))) * (G (n + 3))) * (G (((a + b) + n) + 2))) / (((((a + b) + (2 * n)) + 4) * (G ((a + n) + 2))) * (G ((b + n) + 2))))))]
    [mkBc Left 0; mkBc Right 0].

(** jacobi/bases.py 360-365 class Phi1 with alpha != beta, bc as in its __init__ *)
Definition jacobi_Phi1_ne (G : R -> R) (a b : R) : stencil_class :=
  mkClass "jacobi_Phi1_ne"%string
    [(0%nat, SFun (fun n => ((((Rpower 2 ((- a) - b)) * (G (n + 1))) * (G (((a + b) + n) + 2))) / (((((a + b) + (2 * n)) + 2) * (G ((a + n) + 1))) * (G ((b + n) + 1))))));
     (2%nat, SFun (fun n => ((((- (Rpower 2 ((- a) - b))) * (G (n + 3))) * (G (((a + b) + n) + 2))) / (((((a + b) + (2 * n)) + 4) * (G ((a + n) + 2))) * (G ((b + n) + 2))))));
     (1%nat, SFun (fun n => ((((((Rpower 2 ((- a) - b)) * (a - b)) * (((a + b) + (2 * n)) + 3)) * (G (n + 2))) * (G (((a + b) + n) + 2))) / ((((((a + b) + (2 * n)) + 2) * (((a + b) + (2 * n)) + 4)) * (G ((a + n) + 2))) * (G ((b + n) + 2))))))]
    [mkBc Left 0; mkBc Right 0].

(** jacobi/bases.py 441-445 class Phi2, bc as in its __init__ *)
Definition jacobi_Phi2 (G : R -> R) (a b : R) : stencil_class :=
  mkClass "jacobi_Phi2"%string
    [(0%nat, SFun (fun n => ((((Rpower 2 (((- a) - b) + 1)) * (G (n + 1))) * (G (((a + b) + n) + 3))) / (((((((a + b) + (2 * n)) + 2) * (((a + b) + (2 * n)) + 3)) * (((a + b) + (2 * n)) + 4)) * (G ((a + n) + 1))) * (G ((b + n) + 1))))));
     (2%nat, SFun (fun n => ((((((Rpower 2 (((- a) - b) + 1)) * (((a + b) + (2 * n)) + 5)) * ((((((((((a ^ 2) - ((4 * a) * b)) - ((2 * a) * n)) - (5 * a)) + (b ^ 2)) - ((2 * b) * n)) - (5 * b)) - (2 * (n ^ 2))) - (10 * n)) - 12)) * (G (n + 3))) * (G (((a + b) + n) + 3))) / ((((((((a + b) + (2 * n)) + 3) * (((a + b) + (2 * n)) + 4)) * (((a + b) + (2 * n)) + 6)) * (((a + b) + (2 * n)) + 7)) * (G ((a + n) + 3))) * (G ((b + n) + 3))))));
     (4%nat, SFun (fun n => ((((Rpower 2 (((- a) - b) + 1)) * (G (n + 5))) * (G (((a + b) + n) + 3))) / (((((((a + b) + (2 * n)) + 6) * (((a + b) + (2 * n)) + 7)) * (((a + b) + (2 * n)) + 8)) * (G ((a + n) + 3))) * (G ((b + n) + 3))))))]
    [mkBc Left 0; mkBc Left 1; mkBc Right 0; mkBc Right 1].

(** jacobi/bases.py 441-448 class Phi2 with alpha != beta, bc as in its __init__ *)
Definition jacobi_Phi2_ne (G : R -> R) (a b : R) : stencil_class :=
  mkClass "jacobi_Phi2_ne"%string
    [(0%nat, SFun (fun n => ((((Rpower 2 (((- a) - b) + 1)) * (G (n + 1))) * (G (((a + b) + n) + 3))) / (((((((a + b) + (2 * n)) + 2) * (((a + b) + (2 * n)) + 3)) * (((a + b) + (2 * n)) + 4)) * (G ((a + n) + 1))) * (G ((b + n) + 1))))));
     (2%nat, SFun (fun n => ((((((Rpower 2 (((- a) - b) + 1)) * (((a + b) + (2 * n)) + 5)) * ((((((((((a ^ 2) - ((4 * a) * b)) - ((2 * a) * n)) - (5 * a)) + (b ^ 2)) - ((2 * b) * n)) - (5 * b)) - (2 * (n ^ 2))) - (10 * n)) - 12)) * (G (n + 3))) * (G (((a + b) + n) + 3))) / ((((((((a + b) + (2 * n)) + 3) * (((a + b) + (2 * n)) + 4)) * (((a + b) + (2 * n)) + 6)) * (((a + b) + (2 * n)) + 7)) * (G ((a + n) + 3))) * (G ((b + n) + 3))))));
     (4%nat, SFun (fun n => ((((Rpower 2 (((- a) - b) + 1)) * (G (n + 5))) * (G (((a + b) + n) + 3))) / (((((((a + b) + (2 * n)) + 6) * (((a + b) + (2 * n)) + 7)) * (((a + b) + (2 * n)) + 8)) * (G ((a + n) + 3))) * (G ((b + n) + 3))))));
     (1%nat, SFun (fun n => (((((Rpower 2 (((- a) - b) + 2)) * (a - b)) * (G (n + 2))) * (G (((a + b) + n) + 3))) / (((((((a + b) + (2 * n)) + 2) * (((a + b) + (2 * n)) + 4)) * (((a + b) + (2 * n)) + 6)) * (G ((a + n) + 2))) * (G ((b + n) + 2))))));
     (3%nat, SFun (fun n => (((((- (Rpower 2 (((- a) - b) + 2))) * (a - b)) * (G (n + 4))) * (G (((a + b) + n) + 3))) / (((((((a + b) + (2 * n)) + 4) * (((a + b) + (2 * n)) + 6)) * (((a + b) + (2 * n)) + 8)) * (G ((a + n) + 3))) * (G ((b + n) + 3))))))]
    [mkBc Left 0; mkBc Left 1; mkBc Right 0; mkBc Right 1].

(** jacobi/bases.py 520-525 class Phi3, bc as in its __init__ *)
Definition jacobi_Phi3 (G : R -> R) (a b : R) : stencil_class :=
  mkClass "jacobi_Phi3"%string
    [(0%nat, SFun (fun n => ((((Rpower 2 (((- a) - b) + 2)) * (G (n + 1))) * (G (((a + b) + n) + 4))) / (((((((((a + b) + (2 * n)) + 2) * (((a + b) + (2 * n)) + 3)) * (((a + b) + (2 * n)) + 4)) * (((a + b) + (2 * n)) + 5)) * (((a + b) + (2 * n)) + 6)) * (G ((a + n) + 1))) * (G ((b + n) + 1))))));
     (2%nat, SFun (fun n => (((((3 * (Rpower 2 (((- a) - b) + 2))) * ((((((((((a ^ 2) - ((3 * a) * b)) - (a * n)) - (3 * a)) + (b ^ 2)) - (b * n)) - (3 * b)) - (n ^ 2)) - (6 * n)) - 8)) * (G (n + 3))) * (G (((a + b) + n) + 4))) / (((((((((a + b) + (2 * n)) + 3) * (((a + b) + (2 * n)) + 4)) * (((a + b) + (2 * n)) + 6)) * (((a + b) + (2 * n)) + 8)) * (((a + b) + (2 * n)) + 9)) * (G ((a + n) + 3))) * (G ((b + n) + 3))))));
     (4%nat, SFun (fun n => (((((3 * (Rpower 2 (((- a) - b) + 2))) * ((((((((((- (a ^ 2)) + ((3 * a) * b)) + (a * n)) + (4 * a)) - (b ^ 2)) + (b * n)) + (4 * b)) + (n ^ 2)) + (8 * n)) + 15)) * (G (n + 5))) * (G (((a + b) + n) + 4))) / (((((((((a + b) + (2 * n)) + 5) * (((a + b) + (2 * n)) + 6)) * (((a + b) + (2 * n)) + 8)) * (((a + b) + (2 * n)) + 10)) * (((a + b) + (2 * n)) + 11)) * (G ((a + n) + 4))) * (G ((b + n) + 4))))));
     (6%nat, SFun (fun n => ((((- (Rpower 2 (((- a) - b) + 2))) * (G (n + 7))) * (G (((a + b) + n) + 4))) / (((((((((a + b) + (2 * n)) + 8) * (((a + b) + (2 * n)) + 9)) * (((a + b) + (2 * n)) + 10)) * (((a + b) + (2 * n)) + 11)) * (((a + b) + (2 * n)) + 12)) * (G ((a + n) + 4))) * (G ((b + n) + 4))))))]
    [mkBc Left 0; mkBc Left 1; mkBc Left 2; mkBc Right 0; mkBc Right 1; mkBc Right 2].

(** jacobi/bases.py 520-532 class Phi3 with alpha != beta, bc as in its __init__ *)
Definition jacobi_Phi3_ne (G : R -> R) (a b : R) : stencil_class :=
  mkClass "jacobi_Phi3_ne"%string
    [(0%nat, SFun (fun n => ((((Rpower 2 (((- a) - b) + 2)) * (G (n + 1))) * (G (((a + b) + n) + 4))) / (((((((((a + b) + (2 * n)) + 2) * (((a + b) + (2 * n)) + 3)) * (((a + b) + (2 * n)) + 4)) * (((a + b) + (2 * n)) + 5)) * (((a + b) + (2 * n)) + 6)) * (G ((a + n) + 1))) * (G ((b + n) + 1))))));
     (2%nat, SFun (fun n => (((((3 * (Rpower 2 (((- a) - b) + 2))) * ((((((((((a ^ 2) - ((3 * a) * b)) - (a * n)) - (3 * a)) + (b ^ 2)) - (b * n)) - (3 * b)) - (n ^ 2)) - (6 * n)) - 8)) * (G (n + 3))) * (G (((a + b) + n) + 4))) / (((((((((a + b) + (2 * n)) + 3) * (((a + b) + (2 * n)) + 4)) * (((a + b) + (2 * n)) + 6)) * (((a + b) + (2 * n)) + 8)) * (((a + b) + (2 * n)) + 9)) * (G ((a + n) + 3))) * (G ((b + n) + 3))))));
     (4%nat, SFun (fun n => (((((3 * (Rpower 2 (((- a) - b) + 2))) * ((((((((((- (a ^ 2)) + ((3 * a) * b)) + (a * n)) + (4 * a)) - (b ^ 2)) + (b * n)) + (4 * b)) + (n ^ 2)) + (8 * n)) + 15)) * (G (n + 5))) * (G (((a + b) + n) + 4))) / (((((((((a + b) + (2 * n)) + 5) * (((a + b) + (2 * n)) + 6)) * (((a + b) + (2 * n)) + 8)) * (((a + b) + (2 * n)) + 10)) * (((a + b) + (2 * n)) + 11)) * (G ((a + n) + 4))) * (G ((b + n) + 4))))));
     (6%nat, SFun (fun n => ((((- (Rpower 2 (((- a) - b) + 2))) * (G (n + 7))) * (G (((a + b) + n) + 4))) / (((((((((a + b) + (2 * n)) + 8) * (((a + b) + (2 * n)) + 9)) * (((a + b) + (2 * n)) + 10)) * (((a + b) + (2 * n)) + 11)) * (((a + b) + (2 * n)) + 12)) * (G ((a + n) + 4))) * (G ((b + n) + 4))))));
     (1%nat, SFun (fun n => (((((3 * (Rpower 2 (((- a) - b) + 2))) * (a - b)) * (G (n + 2))) * (G (((a + b) + n) + 4))) / (((((((((a + b) + (2 * n)) + 2) * (((a + b) + (2 * n)) + 4)) * (((a + b) + (2 * n)) + 5)) * (((a + b) + (2 * n)) + 6)) * (((a + b) + (2 * n)) + 8)) * (G ((a + n) + 2))) * (G ((b + n) + 2))))));
     (3%nat, SFun (fun n => (((((((Rpower 2 (((- a) - b) + 2)) * (a - b)) * (((a + b) + (2 * n)) + 7)) * ((((((((((a ^ 2) - ((8 * a) * b)) - ((6 * a) * n)) - (21 * a)) + (b ^ 2)) - ((6 * b) * n)) - (21 * b)) - (6 * (n ^ 2))) - (42 * n)) - 70)) * (G (n + 4))) * (G (((a + b) + n) + 4))) / ((((((((((a + b) + (2 * n)) + 4) * (((a + b) + (2 * n)) + 5)) * (((a + b) + (2 * n)) + 6)) * (((a + b) + (2 * n)) + 8)) * (((a + b) + (2 * n)) + 9)) * (((a + b) + (2 * n)) + 10)) * (G ((a + n) + 4))) * (G ((b + n) + 4))))));
     (5%nat, SFun (fun n => (((((3 * (Rpower 2 (((- a) - b) + 2))) * (a - b)) * (G (n + 6))) * (G (((a + b) + n) + 4))) / (((((((((a + b) + (2 * n)) + 6) * (((a + b) + (2 * n)) + 8)) * (((a + b) + (2 * n)) + 9)) * (((a + b) + (2 * n)) + 10)) * (((a + b) + (2 * n)) + 12)) * (G ((a + n) + 4))) * (G ((b + n) + 4))))))]
    [mkBc Left 0; mkBc Left 1; mkBc Left 2; mkBc Right 0; mkBc Right 1; mkBc Right 2].

(** jacobi/bases.py 607-613 class Phi4, bc as in its __init__ *)
Definition jacobi_Phi4 (G : R -> R) (a b : R) : stencil_class :=
  mkClass "jacobi_Phi4"%string
    [(0%nat, SFun (fun n => ((((Rpower 2 (((- a) - b) + 3)) * (G (n + 1))) * (G (((a + b) + n) + 5))) / (((((((((((a + b) + (2 * n)) + 2) * (((a + b) + (2 * n)) + 3)) * (((a + b) + (2 * n)) + 4)) * (((a + b) + (2 * n)) + 5)) * (((a + b) + (2 * n)) + 6)) * (((a + b) + (2 * n)) + 7)) * (((a + b) + (2 * n)) + 8)) * (G ((a + n) + 1))) * (G ((b + n) + 1))))));
     (2%nat, SFun (fun n => (((((Rpower 2 (((- a) - b) + 4)) * ((((((((((3 * (a ^ 2)) - ((8 * a) * b)) - ((2 * a) * n)) - (7 * a)) + (3 * (b ^ 2))) - ((2 * b) * n)) - (7 * b)) - (2 * (n ^ 2))) - (14 * n)) - 20)) * (G (n + 3))) * (G (((a + b) + n) + 5))) / (((((((((((a + b) + (2 * n)) + 3) * (((a + b) + (2 * n)) + 4)) * (((a + b) + (2 * n)) + 6)) * (((a + b) + (2 * n)) + 7)) * (((a + b) + (2 * n)) + 8)) * (((a + b) + (2 * n)) + 10)) * (((a + b) + (2 * n)) + 11)) * (G ((a + n) + 3))) * (G ((b + n) + 3))))));
     (4%nat, SFun (fun n => ((((((Rpower 2 (((- a) - b) + 3)) * (((a + b) + (2 * n)) + 9)) * (((((((((((((((((((((((((((((((((((a ^ 4) - ((16 * (a ^ 3)) * b)) - ((12 * (a ^ 3)) * n)) - (54 * (a ^ 3))) + ((36 * (a ^ 2)) * (b ^ 2))) + (((24 * (a ^ 2)) * b) * n)) + ((108 * (a ^ 2)) * b)) - ((6 * (a ^ 2)) * (n ^ 2))) - ((54 * (a ^ 2)) * n)) - (109 * (a ^ 2))) - ((16 * a) * (b ^ 3))) + (((24 * a) * (b ^ 2)) * n)) + ((108 * a) * (b ^ 2))) + (((48 * a) * b) * (n ^ 2))) + (((432 * a) * b) * n)) + ((932 * a) * b)) + ((12 * a) * (n ^ 3))) + ((162 * a) * (n ^ 2))) + ((714 * a) * n)) + (1026 * a)) + (b ^ 4)) - ((12 * (b ^ 3)) * n)) - (54 * (b ^ 3))) - ((6 * (b ^ 2)) * (n ^ 2))) - ((54 * (b ^ 2)) * n)) - (109 * (b ^ 2))) + ((12 * b) * (n ^ 3))) + ((162 * b) * (n ^ 2))) + ((714 * b) * n)) + (1026 * b)) + (6 * (n ^ 4))) + (108 * (n ^ 3))) + (714 * (n ^ 2))) + (2052 * n)) + 2160)) * (G (n + 5))) * (G (((a + b) + n) + 5))) / ((((((((((((a + b) + (2 * n)) + 5) * (((a + b) + (2 * n)) + 6)) * (((a + b) + (2 * n)) + 7)) * (((a + b) + (2 * n)) + 8)) * (((a + b) + (2 * n)) + 10)) * (((a + b) + (2 * n)) + 11)) * (((a + b) + (2 * n)) + 12)) * (((a + b) + (2 * n)) + 13)) * (G ((a + n) + 5))) * (G ((b + n) + 5))))));
     (6%nat, SFun (fun n => (((((Rpower 2 (((- a) - b) + 4)) * ((((((((((3 * (a ^ 2)) - ((8 * a) * b)) - ((2 * a) * n)) - (11 * a)) + (3 * (b ^ 2))) - ((2 * b) * n)) - (11 * b)) - (2 * (n ^ 2))) - (22 * n)) - 56)) * (G (n + 7))) * (G (((a + b) + n) + 5))) / (((((((((((a + b) + (2 * n)) + 7) * (((a + b) + (2 * n)) + 8)) * (((a + b) + (2 * n)) + 10)) * (((a + b) + (2 * n)) + 11)) * (((a + b) + (2 * n)) + 12)) * (((a + b) + (2 * n)) + 14)) * (((a + b) + (2 * n)) + 15)) * (G ((a + n) + 5))) * (G ((b + n) + 5))))));
     (8%nat, SFun (fun n => ((((Rpower 2 (((- a) - b) + 3)) * (G (n + 9))) * (G (((a + b) + n) + 5))) / (((((((((((a + b) + (2 * n)) + 10) * (((a + b) + (2 * n)) + 11)) * (((a + b) + (2 * n)) + 12)) * (((a + b) + (2 * n)) + 13)) * (((a + b) + (2 * n)) + 14)) * (((a + b) + (2 * n)) + 15)) * (((a + b) + (2 * n)) + 16)) * (G ((a + n) + 5))) * (G ((b + n) + 5))))))]
    [mkBc Left 0; mkBc Left 1; mkBc Left 2; mkBc Left 3; mkBc Right 0; mkBc Right 1; mkBc Right 2; mkBc Right 3].

(** jacobi/bases.py 607-623 class Phi4 with alpha != beta, bc as in its __init__ *)
Definition jacobi_Phi4_ne (G : R -> R) (a b : R) : stencil_class :=
  mkClass "jacobi_Phi4_ne"%string
    [(0%nat, SFun (fun n => ((((Rpower 2 (((- a) - b) + 3)) * (G (n + 1))) * (G (((a + b) + n) + 5))) / (((((((((((a + b) + (2 * n)) + 2) * (((a + b) + (2 * n)) + 3)) * (((a + b) + (2 * n)) + 4)) * (((a + b) + (2 * n)) + 5)) * (((a + b) + (2 * n)) + 6)) * (((a + b) + (2 * n)) + 7)) * (((a + b) + (2 * n)) + 8)) * (G ((a + n) + 1))) * (G ((b + n) + 1))))));
     (2%nat, SFun (fun n => (((((Rpower 2 (((- a) - b) + 4)) * ((((((((((3 * (a ^ 2)) - ((8 * a) * b)) - ((2 * a) * n)) - (7 * a)) + (3 * (b ^ 2))) - ((2 * b) * n)) - (7 * b)) - (2 * (n ^ 2))) - (14 * n)) - 20)) * (G (n + 3))) * (G (((a + b) + n) + 5))) / (((((((((((a + b) + (2 * n)) + 3) * (((a + b) + (2 * n)) + 4)) * (((a + b) + (2 * n)) + 6)) * (((a + b) + (2 * n)) + 7)) * (((a + b) + (2 * n)) + 8)) * (((a + b) + (2 * n)) + 10)) * (((a + b) + (2 * n)) + 11)) * (G ((a + n) + 3))) * (G ((b + n) + 3))))));
     (4%nat, SFun (fun n => ((((((Rpower 2 (((- a) - b) + 3)) * (((a + b) + (2 * n)) + 9)) * (((((((((((((((((((((((((((((((((((a ^ 4) - ((16 * (a ^ 3)) * b)) - ((12 * (a ^ 3)) * n)) - (54 * (a ^ 3))) + ((36 * (a ^ 2)) * (b ^ 2))) + (((24 * (a ^ 2)) * b) * n)) + ((108 * (a ^ 2)) * b)) - ((6 * (a ^ 2)) * (n ^ 2))) - ((54 * (a ^ 2)) * n)) - (109 * (a ^ 2))) - ((16 * a) * (b ^ 3))) + (((24 * a) * (b ^ 2)) * n)) + ((108 * a) * (b ^ 2))) + (((48 * a) * b) * (n ^ 2))) + (((432 * a) * b) * n)) + ((932 * a) * b)) + ((12 * a) * (n ^ 3))) + ((162 * a) * (n ^ 2))) + ((714 * a) * n)) + (1026 * a)) + (b ^ 4)) - ((12 * (b ^ 3)) * n)) - (54 * (b ^ 3))) - ((6 * (b ^ 2)) * (n ^ 2))) - ((54 * (b ^ 2)) * n)) - (109 * (b ^ 2))) + ((12 * b) * (n ^ 3))) + ((162 * b) * (n ^ 2))) + ((714 * b) * n)) + (1026 * b)) + (6 * (n ^ 4))) + (108 * (n ^ 3))) + (714 * (n ^ 2))) + (2052 * n)) + 2160)) * (G (n + 5))) * (G (((a + b) + n) + 5))) / ((((((((((((a + b) + (2 * n)) + 5) * (((a + b) + (2 * n)) + 6)) * (((a + b) + (2 * n)) + 7)) * (((a + b) + (2 * n)) + 8)) * (((a + b) + (2 * n)) + 10)) * (((a + b) + (2 * n)) + 11)) * (((a + b) + (2 * n)) + 12)) * (((a + b) + (2 * n)) + 13)) * (G ((a + n) + 5))) * (G ((b + n) + 5))))));
     (6%nat, SFun (fun n => (((((Rpower 2 (((- a) - b) + 4)) * ((((((((((3 * (a ^ 2)) - ((8 * a) * b)) - ((2 * a) * n)) - (11 * a)) + (3 * (b ^ 2))) - ((2 * b) * n)) - (11 * b)) - (2 * (n ^ 2))) - (22 * n)) - 56)) * (G (n + 7))) * (G (((a + b) + n) + 5))) / (((((((((((a + b) + (2 * n)) + 7) * (((a + b) + (2 * n)) + 8)) * (((a + b) + (2 * n)) + 10)) * (((a + b) + (2 * n)) + 11)) * (((a + b) + (2 * n)) + 12)) * (((a + b) + (2 * n)) + 14)) * (((a + b) + (2 * n)) + 15)) * (G ((a + n) + 5))) * (G ((b + n) + 5))))));
     (8%nat, SFun (fun n => ((((Rpower 2 (((- a) - b) + 3)) * (G (n + 9))) * (G (((a + b) + n) + 5))) / (((((((((((a + b) + (2 * n)) + 10) * (((a + b) + (2 * n)) + 11)) * (((a + b) + (2 * n)) + 12)) * (((a + b) + (2 * n)) + 13)) * (((a + b) + (2 * n)) + 14)) * (((a + b) + (2 * n)) + 15)) * (((a + b) + (2 * n)) + 16)) * (G ((a + n) + 5))) * (G ((b + n) + 5))))));
     (1%nat, SFun (fun n => (((((Rpower 2 (((- a) - b) + 5)) * (a - b)) * (G (n + 2))) * (G (((a + b) + n) + 5))) / (((((((((((a + b) + (2 * n)) + 2) * (((a + b) + (2 * n)) + 4)) * (((a + b) + (2 * n)) + 5)) * (((a + b) + (2 * n)) + 6)) * (((a + b) + (2 * n)) + 7)) * (((a + b) + (2 * n)) + 8)) * (((a + b) + (2 * n)) + 10)) * (G ((a + n) + 2))) * (G ((b + n) + 2))))));
     (3%nat, SFun (fun n => ((((((Rpower 2 (((- a) - b) + 5)) * (a - b)) * ((((((((((a ^ 2) - ((5 * a) * b)) - ((3 * a) * n)) - (12 * a)) + (b ^ 2)) - ((3 * b) * n)) - (12 * b)) - (3 * (n ^ 2))) - (24 * n)) - 43)) * (G (n + 4))) * (G (((a + b) + n) + 5))) / (((((((((((a + b) + (2 * n)) + 4) * (((a + b) + (2 * n)) + 5)) * (((a + b) + (2 * n)) + 6)) * (((a + b) + (2 * n)) + 8)) * (((a + b) + (2 * n)) + 10)) * (((a + b) + (2 * n)) + 11)) * (((a + b) + (2 * n)) + 12)) * (G ((a + n) + 4))) * (G ((b + n) + 4))))));
     (5%nat, SFun (fun n => ((((((Rpower 2 (((- a) - b) + 5)) * (a - b)) * ((((((((((- (a ^ 2)) + ((5 * a) * b)) + ((3 * a) * n)) + (15 * a)) - (b ^ 2)) + ((3 * b) * n)) + (15 * b)) + (3 * (n ^ 2))) + (30 * n)) + 70)) * (G (n + 6))) * (G (((a + b) + n) + 5))) / (((((((((((a + b) + (2 * n)) + 6) * (((a + b) + (2 * n)) + 7)) * (((a + b) + (2 * n)) + 8)) * (((a + b) + (2 * n)) + 10)) * (((a + b) + (2 * n)) + 12)) * (((a + b) + (2 * n)) + 13)) * (((a + b) + (2 * n)) + 14)) * (G ((a + n) + 5))) * (G ((b + n) + 5))))));
     (7%nat, SFun (fun n => (((((- (Rpower 2 (((- a) - b) + 5))) * (a - b)) * (G (n + 8))) * (G (((a + b) + n) + 5))) / (((((((((((a + b) + (2 * n)) + 8) * (((a + b) + (2 * n)) + 10)) * (((a + b) + (2 * n)) + 11)) * (((a + b) + (2 * n)) + 12)) * (((a + b) + (2 * n)) + 13)) * (((a + b) + (2 * n)) + 14)) * (((a + b) + (2 * n)) + 16)) * (G ((a + n) + 5))) * (G ((b + n) + 5))))))]
    [mkBc Left 0; mkBc Left 1; mkBc Left 2; mkBc Left 3; mkBc Right 0; mkBc Right 1; mkBc Right 2; mkBc Right 3].

(** jacobi/bases.py 693-696 class CompactDirichlet, bc as in its __init__ *)
Definition jacobi_CompactDirichlet (a b : R) : stencil_class :=
  mkClass "jacobi_CompactDirichlet"%string
    [(0%nat, SConst (1));
     (2%nat, SFun (fun n => ((((- (n + 1)) * (n + 2)) * (((a + b) + (2 * n)) + 2)) / ((((a + n) + 1) * ((b + n) + 1)) * (((a + b) + (2 * n)) + 4)))))]
    [mkBc Left 0; mkBc Right 0].

(** jacobi/bases.py 693-698 class CompactDirichlet with alpha != beta, bc as in its __init__ *)
Definition jacobi_CompactDirichlet_ne (a b : R) : stencil_class :=
  mkClass "jacobi_CompactDirichlet_ne"%string
    [(0%nat, SConst (1));
     (2%nat, SFun (fun n => ((((- (n + 1)) * (n + 2)) * (((a + b) + (2 * n)) + 2)) / ((((a + n) + 1) * ((b + n) + 1)) * (((a + b) + (2 * n)) + 4)))));
     (1%nat, SFun (fun n => ((((a - b) * (n + 1)) * (((a + b) + (2 * n)) + 3)) / ((((a + n) + 1) * ((b + n) + 1)) * (((a + b) + (2 * n)) + 4)))))]
    [mkBc Left 0; mkBc Right 0].

(** jacobi/bases.py 770-773 class CompactNeumann, bc as in its __init__ *)
Definition jacobi_CompactNeumann (a b : R) : stencil_class :=
  mkClass "jacobi_CompactNeumann"%string
    [(0%nat, SConst (1));
     (2%nat, SFun (fun n => (((((- n) * (n + 1)) * (((a + b) + n) + 1)) * (((a + b) + (2 * n)) + 2)) / (((((a + n) + 1) * ((b + n) + 1)) * (((a + b) + n) + 3)) * (((a + b) + (2 * n)) + 4)))))]
    [mkBc Left 1; mkBc Right 1].

(** jacobi/bases.py 770-775 class CompactNeumann with alpha != beta, bc as in its __init__ *)
Definition jacobi_CompactNeumann_ne (a b : R) : stencil_class :=
  mkClass "jacobi_CompactNeumann_ne"%string
    [(0%nat, SConst (1));
     (2%nat, SFun (fun n => (((((- n) * (n + 1)) * (((a + b) + n) + 1)) * (((a + b) + (2 * n)) + 2)) / (((((a + n) + 1) * ((b + n) + 1)) * (((a + b) + n) + 3)) * (((a + b) + (2 * n)) + 4)))));
     (1%nat, SFun (fun n => ((((n * (a - b)) * (((a + b) + n) + 1)) * (((a + b) + (2 * n)) + 3)) / (((((a + n) + 1) * ((b + n) + 1)) * (((a + b) + n) + 2)) * (((a + b) + (2 * n)) + 4)))))]
    [mkBc Left 1; mkBc Right 1].

(** jacobi/bases.py 836-836 class UpperDirichlet, bc as in its __init__ *)
Definition jacobi_UpperDirichlet (a b : R) : stencil_class :=
  mkClass "jacobi_UpperDirichlet"%string
    [(0%nat, SConst (1));
     (1%nat, SFun (fun n => ((- (n + 1)) / ((a + n) + 1))))]
    [mkBc Right 0].

(** jacobi/bases.py 897-897 class LowerDirichlet, bc as in its __init__ *)
Definition jacobi_LowerDirichlet (a b : R) : stencil_class :=
  mkClass "jacobi_LowerDirichlet"%string
    [(0%nat, SConst (1));
     (1%nat, SFun (fun n => ((n + 1) / ((b + n) + 1))))]
    [mkBc Left 0].

(** laguerre/bases.py 263-263 class CompactDirichlet, bc as in its __init__ *)
Definition laguerre_CompactDirichlet : stencil_class :=
  mkClass "laguerre_CompactDirichlet"%string
    [(0%nat, SConst (1));
     (1%nat, SConst ((- 1)))]
    [mkBc Left 0].

(** laguerre/bases.py 318-318 class CompactNeumann, bc as in its __init__ *)
Definition laguerre_CompactNeumann : stencil_class :=
  mkClass "laguerre_CompactNeumann"%string
    [(0%nat, SConst (1));
     (1%nat, SFun (fun n => ((- ((2 * n) + 1)) / ((2 * n) + 3))))]
    [mkBc Left 1].

(** all classes of a family *)
Definition chebyshev_classes : list stencil_class :=
  [chebyshev_ShenDirichlet;
   chebyshev_Phi1;
   chebyshev_ShenNeumann;
   chebyshev_ShenBiharmonic;
   chebyshev_Phi2;
   chebyshev_Phi3;
   chebyshev_Phi4;
   chebyshev_Phi6;
   chebyshev_UpperDirichlet;
   chebyshev_LowerDirichlet;
   chebyshev_DirichletNeumann;
   chebyshev_NeumannDirichlet;
   chebyshev_UpperDirichletNeumann;
   chebyshev_LowerDirichletNeumann;
   chebyshev_Compact3;
   chebyshev_Compact4].
Definition legendre_classes : list stencil_class :=
  [legendre_ShenDirichlet;
   legendre_ShenDirichlet_scaled;
   legendre_Phi1;
   legendre_ShenNeumann;
   legendre_ShenBiharmonic;
   legendre_Phi2;
   legendre_Phi3;
   legendre_Phi4;
   legendre_Phi6;
   legendre_BeamFixedFree;
   legendre_UpperDirichlet;
   legendre_DirichletNeumann;
   legendre_LowerDirichlet;
   legendre_NeumannDirichlet;
   legendre_UpperDirichletNeumann;
   legendre_Compact3].
(** the two LowerDirichlet classes of chebyshevu and ultraspherical are kept apart: their
    default bc names the other end of the domain than their stencil vanishes at *)
Definition with_bcs (cls : stencil_class) (bcs : list bcond) : stencil_class :=
  mkClass (sc_name cls) (sc_stencil cls) bcs.
Definition chebyshevu_classes : list stencil_class :=
  [chebyshevu_Phi1;
   chebyshevu_Phi1_scaled;
   chebyshevu_Phi2;
   chebyshevu_Phi2_scaled;
   chebyshevu_Phi3;
   chebyshevu_Phi4;
   chebyshevu_Phi6;
   chebyshevu_CompactDirichlet;
   chebyshevu_CompactDirichlet_scaled;
   chebyshevu_CompactNeumann;
   chebyshevu_UpperDirichlet;
   chebyshevu_CompactBiharmonic;
   chebyshevu_Compact3].
Definition ultraspherical_classes (G : R -> R) (a : R) : list stencil_class :=
  [ultraspherical_Phi1 G a;
   ultraspherical_Phi2 G a;
   ultraspherical_Phi3 G a;
   ultraspherical_Phi4 G a;
   ultraspherical_Phi6 G a;
   ultraspherical_CompactDirichlet a;
   ultraspherical_CompactNeumann a;
   ultraspherical_UpperDirichlet a;
   ultraspherical_CompactBiharmonic a].
Definition jacobi_classes (G : R -> R) (a b : R) : list stencil_class :=
  [jacobi_Phi1 G a b;
   jacobi_Phi2 G a b;
   jacobi_Phi3 G a b;
   jacobi_Phi4 G a b;
   jacobi_CompactDirichlet a b;
   jacobi_CompactNeumann a b;
   jacobi_UpperDirichlet a b;
   jacobi_LowerDirichlet a b].
(** with alpha different from beta *)
Definition jacobi_ne_classes (G : R -> R) (a b : R) : list stencil_class :=
  [jacobi_Phi1_ne G a b;
   jacobi_Phi2_ne G a b;
   jacobi_Phi3_ne G a b;
   jacobi_Phi4_ne G a b;
   jacobi_CompactDirichlet_ne a b;
   jacobi_CompactNeumann_ne a b;
   jacobi_UpperDirichlet a b;
   jacobi_LowerDirichlet a b].
Definition laguerre_classes : list stencil_class :=
  [laguerre_CompactDirichlet;
   laguerre_CompactNeumann].
