(** DomainModel.v -- spectralbase.py: domain maps and BoundaryConditions; utilities/findbasis.py:
    get_stencil_matrix and get_bc_basis. *)
From Coq Require Import Reals List String Arith ZArith.
From Verif Require Import Base Fld RPoly JacobiModel.
Import ListNotations.
Local Open Scope R_scope.

(** spectralbase.py 33-35 Domain, with finite ends *)
Record domain := mkDomain { lower : R; upper : R }.

(** spectralbase.py 873-887 domain_factor; ref is reference_domain() *)
Definition domain_factor (dom ref : domain) : R :=
  let L := upper dom - lower dom in
  let R := upper ref - lower ref in
  if Rlt_dec (Rabs (L - R)) (1 / 10 ^ 12) then 1 else R / L.
(** NamedTuple equality *)
Definition domain_eqb (d e : domain) : bool :=
  if Req_EM_T (lower d) (lower e) then if Req_EM_T (upper d) (upper e) then true else false else false.
(** spectralbase.py 658-673 map_reference_domain (both branches compute the same number) *)
Definition map_reference_domain (dom ref : domain) (x : R) : R :=
  if negb (domain_eqb dom ref) then lower ref + (x - lower dom) * domain_factor dom ref else x.
(** spectralbase.py 675-689 map_true_domain *)
Definition map_true_domain (dom ref : domain) (x : R) : R :=
  if negb (domain_eqb dom ref) then lower dom + (x - lower ref) / domain_factor dom ref else x.

(** ** BoundaryConditions.  The documented condition names: Dirichlet, derivatives, Robin and
    u' + c u'' *)
Inductive bckey := kD | kN | kN2 | kN3 | kN4 | kN5 | kR | kW.
Definition key_name (k : bckey) : string :=
  match k with kD => "D" | kN => "N" | kN2 => "N2" | kN3 => "N3" | kN4 => "N4" | kN5 => "N5" | kR => "R" | kW => "W" end.
Definition key_eqb (a b : bckey) : bool := String.eqb (key_name a) (key_name b).
(** a number, or the pair (c, d) of the Robin forms *)
Inductive bcval := Val (v : R) | Pair (c d : R).
(** a Python dict in insertion order *)
Definition side := list (bckey * bcval).
Record bconds := mkBc { bleft : side; bright : side }.
Inductive bcdomain := NoDomain | Unbounded | Bounded (d : domain).

(** 1953-1977 bc given as a tuple; entries of tuples longer than two are numbers *)
Definition names_of (n : nat) : list bckey := firstn n [kD; kN; kN2; kN3; kN4; kN5].
Fixpoint opt_vals (l : list (option R)) : option (list R) :=
  match l with
  | [] => Some []
  | Some x :: l => match opt_vals l with Some r => Some (x :: r) | None => None end
  | None :: _ => None
  end.
Definition opt_side (o : option R) : side := match o with Some v => [(kD, Val v)] | None => [] end.
Definition bc_of_tuple (bc : list (option R)) : option bconds :=
  match bc with
  | [Some a] => Some (mkBc [(kD, Val a)] [])
  | [a; b] => Some (mkBc (opt_side a) (opt_side b))
  | _ =>
    let n := List.length bc in
    if existsb (Nat.eqb n) [4; 6; 8; 10; 12]%nat then
      match opt_vals bc with
      | Some v => let h := Nat.div n 2 in
          Some (mkBc (combine (names_of h) (map Val (firstn h v))) (combine (names_of h) (map Val (skipn h v))))
      | None => None
      end
    else None
  end.

(** 1988-1993 df *)
Definition bc_df (d : bcdomain) : R :=
  match d with Bounded d => 2 / (upper d - lower d) | _ => 1 end.
(** 1995-2002 the loop over the conditions (a pair divided by a number is a TypeError in Python;
    here it stays as it is) *)
Definition rescale1 (df : R) (kv : bckey * bcval) : bckey * bcval :=
  match kv with
  | (kN, Val v) => (kN, Val (v / df))
  | (kN2, Val v) => (kN2, Val (v / df ^ 2))
  | (kN3, Val v) => (kN3, Val (v / df ^ 3))
  | _ => kv
  end.
(** 1889-2003 __init__ from a dictionary {'left': .., 'right': ..} *)
Definition bc_init (b : bconds) (d : bcdomain) : bconds :=
  let df := bc_df d in mkBc (map (rescale1 df) (bleft b)) (map (rescale1 df) (bright b)).

(** sorted(keys): insertion sort by Python's string order *)
Fixpoint insert (kv : bckey * bcval) (l : side) : side :=
  match l with
  | [] => [kv]
  | kv' :: r => if String.leb (key_name (fst kv)) (key_name (fst kv')) then kv :: l else kv' :: insert kv r
  end.
Definition sorted_side (s : side) : side := fold_right insert [] s.
(** 2005-2006 orderednames; 2008-2015 orderedvals; 2017-2018 num_bcs *)
Definition orderednames (b : bconds) : list string :=
  map (fun kv => String.append "L" (key_name (fst kv))) (sorted_side (bleft b)) ++
  map (fun kv => String.append "R" (key_name (fst kv))) (sorted_side (bright b)).
Definition rhs (v : bcval) : R := match v with Val v => v | Pair _ d => d end.
Definition orderedvals (b : bconds) : list R :=
  map (fun kv => rhs (snd kv)) (sorted_side (bleft b)) ++ map (fun kv => rhs (snd kv)) (sorted_side (bright b)).
Definition num_bcs (b : bconds) : nat := List.length (orderedvals b).
(** 2020-2026 num_derivatives; None is the KeyError *)
Definition key_order (k : bckey) : option nat :=
  match k with kD => Some 0%nat | kR => Some 0%nat | kN => Some 1%nat | kN2 => Some 2%nat | kN3 => Some 3%nat | kN4 => Some 4%nat | _ => None end.
Definition num_derivatives (b : bconds) : option nat :=
  fold_left (fun acc kv => match acc, key_order (fst kv) with Some n, Some k => Some (n + k)%nat | _, _ => None end)
    (bleft b ++ bright b) (Some 0%nat).

(** ** findbasis.py.  bnd k is_right i is bnd_values(k)[lr](i).  33-58: a row of the system for one
    condition: the functional applied to the orthogonal function number m *)
Definition bnd (g : nat -> R) (alf bet : R) (k : nat) (right : bool) (i : nat) : R :=
  g i * (if right then bnd_right alf bet k i else bnd_left alf bet k i).
Definition functional (bd : nat -> bool -> nat -> R) (right : bool) (kv : bckey * bcval) : option (nat -> R) :=
  match kv with
  | (kR, Pair c _) => Some (fun m => bd 0%nat right m + c * bd 1%nat right m)
  | (kW, Pair c _) => Some (fun m => bd 1%nat right m + c * bd 2%nat right m)
  | (kD, _) => Some (bd 0%nat right) | (kN, _) => Some (bd 1%nat right) | (kN2, _) => Some (bd 2%nat right)
  | (kN3, _) => Some (bd 3%nat right) | (kN4, _) => Some (bd 4%nat right)
  | _ => None                                       (* bc['N5']: KeyError *)
  end.
Fixpoint opt_all {A} (l : list (option A)) : option (list A) :=
  match l with
  | [] => Some []
  | Some x :: l => match opt_all l with Some r => Some (x :: r) | None => None end
  | None :: _ => None
  end.
(** the rows in the order of orderednames() *)
Definition functionals (bd : nat -> bool -> nat -> R) (b : bconds) : option (list (nat -> R)) :=
  opt_all (map (functional bd false) (sorted_side (bleft b)) ++ map (functional bd true) (sorted_side (bright b))).
Definition zerofun (_ : nat) : R := 0.
(** 45-57: matrix s and right hand side r at basis number n *)
Definition st_matrix (fs : list (nat -> R)) (n : nat) (i j : nat) : R := nth i fs zerofun (n + (1 + j))%nat.
Definition st_rhs (fs : list (nat -> R)) (n : nat) (i : nat) : R := - nth i fs zerofun n.
(** 61-65: the stencil {0: 1, i+1: M_i if not zero}; M is what A.solve(b) returned *)
Definition stencil_of (nb : nat) (M : nat -> R) : list (nat * R) :=
  (0%nat, 1) :: flat_map (fun i => if Req_EM_T (M i) 0 then [] else [(S i, M i)]) (seq 0 nb).
(** 98-118 _computematrix(first): row i, column j of s is entry (j, i) of A^{-1}; inv is what
    A.solve(eye) returned *)
Definition bc_matrix (fs : list (nat -> R)) (first : nat) (i j : nat) : R := nth i fs zerofun (first + j)%nat.
(** 129-131: sol *)
Definition bc_sol (nb first : nat) (inv : nat -> nat -> R) (i j : nat) : R :=
  if (j <? first)%nat then 0 else inv (j - first)%nat i.
