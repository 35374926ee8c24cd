(** FormsModel.v -- forms/arguments.py Expr and forms/operators.py Dx, div, grad, curl.

    Scales are sympy expressions.  What the code uses of sympy is collected in [Sym]: arithmetic,
    sp.diff, sp.simplify, coors.refine (sp.refine and the user's replacements) and the test == 0.
    The three parallel nested lists _terms, _scales, _indices are one list of lists of triples.
    The basis function of an Expr is not kept: index numbers count the scalar components of the
    base BasisFunction.  [None] stands for an exception. *)
From Coq Require Import Arith ZArith List Bool.
Import ListNotations.

Record Sym := mkSym {
  sym :> Type;
  s_int : Z -> sym;
  s_add : sym -> sym -> sym;
  s_mul : sym -> sym -> sym;
  s_opp : sym -> sym;
  s_inv : sym -> sym;                 (* 1/a *)
  s_diff : nat -> sym -> sym;         (* sp.diff(a, psi[i], 1) *)
  s_simplify : sym -> sym;            (* sp.simplify(a, measure=...) *)
  s_refine : sym -> sym;              (* coors.refine(a) *)
  s_is0 : sym -> bool                 (* a == 0 *)
}.
Arguments s_int {_}. Arguments s_add {_}. Arguments s_mul {_}. Arguments s_opp {_}. Arguments s_inv {_}.
Arguments s_diff {_}. Arguments s_simplify {_}. Arguments s_refine {_}. Arguments s_is0 {_}.

Section Forms.
Context {S : Sym}.

(** one term: the numbers of derivatives, the scale, the index of the component *)
Record term := mkTerm { t_der : list nat; t_sc : S; t_ind : nat }.
(** self.dimensions and the tensor components *)
Record expr := mkExpr { e_dim : nat; e_comps : list (list term) }.

Definition obind {A B} (o : option A) (f : A -> option B) : option B := match o with Some a => f a | None => None end.
Notation "'do' x <- v ;; k" := (obind v (fun x => k)) (at level 200, x name, v at level 100, k at level 200).
Fixpoint opt_all {A} (l : list (option A)) : option (list A) :=
  match l with [] => Some [] | o :: l => do x <- o ;; do r <- opt_all l ;; Some (x :: r) end.

(** arguments.py 506-520 Expr.__init__ for a BasisFunction with n scalar components and the given offset *)
Definition basis_expr (dim n offset : nat) : expr :=
  mkExpr dim (map (fun i => [mkTerm (repeat 0 dim) (s_int 1) (offset + i)]) (seq 0 n)).

Definition num_components (e : expr) : nat := length (e_comps e).

(** arguments.py 554-567 expr_rank; self._terms[0][0] raises IndexError when the first component has no terms *)
Definition expr_rank (e : expr) : option nat :=
  if e_dim e =? 1 then (if num_components e <? 3 then Some (num_components e - 1) else None)
  else if num_components e =? 1 then Some 0
  else match e_comps e with
       | (t :: _) :: _ =>
           if num_components e =? length (t_der t) then Some 1
           else if num_components e =? length (t_der t) ^ 2 then Some 2
           else None
       | _ => None
       end.

(** arguments.py 802-825 __getitem__ *)
Definition getitem (e : expr) (i : nat) : option expr :=
  if e_dim e <=? i then None else
  do r <- expr_rank e ;;
  match r with
  | 1 => match nth_error (e_comps e) i with Some c => Some (mkExpr (e_dim e) [c]) | None => None end
  | 2 => Some (mkExpr (e_dim e) (firstn (e_dim e) (skipn (i * e_dim e) (e_comps e))))
  | _ => None
  end.

(** arguments.py 871-883 __mul__ by a number or a scalar expression (882: simplify after refine) *)
Definition mul (e : expr) (a : S) : expr :=
  mkExpr (e_dim e) (map (map (fun t => mkTerm (t_der t) (s_simplify (s_refine (s_mul (t_sc t) a))) (t_ind t))) (e_comps e)).
(** 871-883 with a tuple, one factor per component; a shorter tuple raises IndexError *)
Fixpoint mul_tuple_comps (cs : list (list term)) (a : list S) : option (list (list term)) :=
  match cs, a with
  | [], _ => Some []
  | c :: cs, x :: a =>
      do r <- mul_tuple_comps cs a ;;
      Some (map (fun t => mkTerm (t_der t) (s_simplify (s_refine (s_mul (t_sc t) x))) (t_ind t)) c :: r)
  | _, [] => None
  end.
Definition mul_tuple (e : expr) (a : list S) : option expr :=
  do cs <- mul_tuple_comps (e_comps e) a ;; Some (mkExpr (e_dim e) cs).
(** arguments.py 888-897 __imul__ (refine before the product), the value it leaves in self *)
Definition imul (e : expr) (a : S) : expr :=
  mkExpr (e_dim e) (map (map (fun t => mkTerm (t_der t) (s_simplify (s_mul (s_refine (t_sc t)) a)) (t_ind t))) (e_comps e)).

Fixpoint zip_app (a b : list (list term)) : list (list term) :=
  match a, b with x :: a, y :: b => (x ++ y) :: zip_app a b | _, _ => [] end.
(** arguments.py 899-919 __add__, 921-932 __iadd__ *)
Definition add (e f : expr) : option expr :=
  if num_components e =? num_components f then Some (mkExpr (e_dim e) (zip_app (e_comps e) (e_comps f))) else None.
Definition opp_term (t : term) : term := mkTerm (t_der t) (s_opp (t_sc t)) (t_ind t).
(** arguments.py 934-954 __sub__, 956-975 __isub__ *)
Definition sub (e f : expr) : option expr :=
  if num_components e =? num_components f
  then Some (mkExpr (e_dim e) (zip_app (e_comps e) (map (map opp_term) (e_comps f)))) else None.
(** arguments.py 977-983 __neg__: vec[j]*(-1) *)
Definition neg (e : expr) : expr :=
  mkExpr (e_dim e) (map (map (fun t => mkTerm (t_der t) (s_mul (t_sc t) (s_int (-1))) (t_ind t))) (e_comps e)).

(** arguments.py 985-1024 simplify *)
Fixpoint list_eqb (a b : list nat) : bool :=
  match a, b with [], [] => true | x :: a, y :: b => (x =? y) && list_eqb a b | _, _ => false end.
Definition same (t u : term) : bool := list_eqb (t_der t) (t_der u) && (t_ind t =? t_ind u).
(** the first matching term of the list built so far gets the scale added, or is removed if the sum is
    zero (1001-1012); a new term is appended unless its scale is zero (1013-1018) *)
Fixpoint insert_term (t : term) (l : list term) : list term :=
  match l with
  | [] => let sc := s_refine (s_simplify (t_sc t)) in if s_is0 sc then [] else [mkTerm (t_der t) sc (t_ind t)]
  | u :: l =>
      if same t u then
        let sc := s_refine (s_simplify (s_add (t_sc u) (t_sc t))) in
        if s_is0 sc then l else mkTerm (t_der u) sc (t_ind u) :: l
      else u :: insert_term t l
  end.
Definition simplify_comp (c : list term) : list term := fold_left (fun acc t => insert_term t acc) c [].
Definition simplify (e : expr) : expr :=
  if forallb (fun c => length c =? 1) (e_comps e) then e      (* 987-988 *)
  else mkExpr (e_dim e) (map simplify_comp (e_comps e)).

(** ** operators.py 188-241 Dx *)
Fixpoint incr (x : nat) (l : list nat) : list nat :=
  match l, x with [], _ => [] | a :: l, O => (a + 1) :: l | a :: l, Datatypes.S x => a :: incr x l end.
Definition dx_comp (x : nat) (c : list term) : list term :=
  map (fun t => mkTerm (incr x (t_der t)) (t_sc t) (t_ind t)) c ++
  flat_map (fun t => let sc0 := s_refine (s_simplify (s_diff x (t_sc t))) in
                     if s_is0 sc0 then [] else [mkTerm (t_der t) sc0 (t_ind t)]) c.

(** what the operators use of coordinates.py *)
Record coords := mkCoords {
  co_cart : bool;                      (* is_cartesian *)
  co_orth : bool;                      (* is_orthogonal *)
  co_normal : bool;                    (* config['basisvectors'] == 'normal', otherwise 'covariant' *)
  co_hi : nat -> S;                    (* hi *)
  co_sg : S;                           (* get_sqrt_det_g() *)
  co_g : nat -> nat -> S;              (* get_covariant_metric_tensor() *)
  co_gt : nat -> nat -> S;             (* get_contravariant_metric_tensor() *)
  co_ct : nat -> nat -> nat -> S       (* get_christoffel_second() *)
}.
Variable co : coords.

(** k = 1; an axis x >= dim raises IndexError (psi[x]) *)
Definition dx1 (e : expr) (x : nat) : option expr :=
  if e_dim e <=? x then None else
  do r <- expr_rank e ;;                                       (* 217: the assertion *)
  if (r <? 1) || co_cart co then Some (mkExpr (e_dim e) (map (dx_comp x) (e_comps e))) else None.
Fixpoint dx_loop (e : expr) (x k : nat) : option expr :=
  match k with O => Some e | Datatypes.S k => do e <- dx1 e x ;; dx_loop e x k end.
Definition dx (e : expr) (x k : nat) : option expr := dx_loop e x k.

(** arguments.py 827-869 get_contravariant_component *)
Definition contra0 (e : expr) : option expr :=                 (* i is None *)
  if co_normal co then (if e_dim e =? 1 then Some (mul e (s_inv (co_hi co 0))) else None) else Some e.
Definition contra (e : expr) (i : nat) : option expr :=
  if e_dim e <=? i then None
  else if co_normal co then
    (if e_dim e =? 1 then Some (mul e (s_inv (co_hi co i)))
     else do c <- getitem e i ;; Some (mul c (s_inv (co_hi co i))))
  else getitem e i.
Definition contra2 (e : expr) (i j : nat) : option expr :=
  if (e_dim e <=? i) || (e_dim e <=? j) then None
  else do c <- getitem e i ;; do c <- getitem c j ;;
       if co_normal co then Some (mul c (s_inv (s_mul (co_hi co i) (co_hi co j)))) else Some c.

(** operators.py 12-30 _expr_from_vector_components; ndim is taken from the first term of the first
    component *)
Definition scale_comp (ndim n i : nat) (c : expr) : expr :=
  imul c (if co_normal co then
            (if n =? ndim then co_hi co i
             else if n =? ndim ^ 2 then s_mul (co_hi co (i / ndim)) (co_hi co (i mod ndim))
             else s_int 1)
          else s_int 1).
Definition from_components (dim : nat) (comp : list expr) : option expr :=
  match comp with
  | c0 :: _ =>
      match e_comps c0 with
      | (t :: _) :: _ =>
          let ndim := length (t_der t) in
          Some (mkExpr dim (flat_map (fun ic => e_comps (scale_comp ndim (length comp) (fst ic) (snd ic)))
                                     (combine (seq 0 (length comp)) comp)))
      | _ => None
      end
  | [] => None
  end.
(** d = l[0]; for m in range(1, len(l)): d += l[m] *)
Fixpoint add_all (d : expr) (l : list expr) : option expr :=
  match l with [] => Some d | e :: l => do d <- add d e ;; add_all d l end.
Definition sum_list (l : list expr) : option expr := match l with [] => None | d :: l => add_all d l end.

(** ** operators.py 32-114 div *)
(** 61-66 a vector, Cartesian *)
Definition div_vec_cart (e : expr) : option expr :=
  do l <- opt_all (map (fun i => do c <- getitem e i ;; dx1 c i) (seq 0 (e_dim e))) ;;
  do d <- sum_list l ;; Some (simplify d).
(** 107-113 a vector *)
Definition div_vec_curv (e : expr) : option expr :=
  do l <- opt_all (map (fun i => do c <- contra e i ;; do d <- dx1 (mul c (co_sg co)) i ;; Some (mul d (s_inv (co_sg co))))
                       (seq 0 (e_dim e))) ;;
  do d <- sum_list l ;; Some (simplify d).
(** 79-105 component i of the divergence of a tensor *)
Definition div_ten_terms (e : expr) (i : nat) : option (list expr) :=
  do l <- opt_all (map (fun j =>
    do Sij <- contra2 e i j ;; do dS <- dx1 Sij j ;;
    do r <- opt_all (map (fun k =>
       do Skj <- contra2 e k j ;; do Sik <- contra2 e i k ;;
       Some ((if s_is0 (co_ct co i k j) then [] else [mul Skj (co_ct co i k j)]) ++
             (if s_is0 (co_ct co j k j) then [] else [mul Sik (co_ct co j k j)]))) (seq 0 (e_dim e))) ;;
    Some (dS :: concat r)) (seq 0 (e_dim e))) ;;
  Some (concat l).
Definition div (e : expr) : option expr :=
  if co_cart co then
    if e_dim e =? 1 then dx1 e 0
    else if num_components e =? e_dim e ^ 2 then
      do dv <- opt_all (map (fun i => do c <- getitem e i ;;
        (* div(test[i]); test[i] has ndim components *)
        div_vec_cart c) (seq 0 (e_dim e))) ;;
      from_components (e_dim e) dv
    else div_vec_cart e
  else
    if e_dim e =? 1 then
      do c <- contra0 e ;; do d <- dx1 (mul c (co_sg co)) 0 ;; Some (mul d (s_inv (co_sg co)))
    else if num_components e =? e_dim e ^ 2 then
      do d <- opt_all (map (fun i => do l <- div_ten_terms e i ;; do s <- sum_list l ;; Some (simplify s)) (seq 0 (e_dim e))) ;;
      from_components (e_dim e) d
    else div_vec_curv e.

(** ** operators.py 116-186 grad *)
(** 140-146 *)
Definition grad_cart (e : expr) : option (list expr) :=
  if 1 <? num_components e then
    do l <- opt_all (map (fun i => opt_all (map (fun j => do c <- getitem e i ;; dx1 c j) (seq 0 (e_dim e))))
                         (seq 0 (num_components e))) ;;
    Some (concat l)
  else opt_all (map (fun i => dx1 e i) (seq 0 (e_dim e))).
(** 153-171 component (i, j) of the gradient of a vector *)
Definition grad_vec_terms (e : expr) (i j : nat) : option (list expr) :=
  do vi <- contra e i ;;
  do r <- opt_all (map (fun l =>
    let sc := co_gt co l j in
    do a <- (if s_is0 sc then Some [] else do d <- dx1 vi l ;; Some [mul d sc]) ;;
    do b <- opt_all (map (fun k =>
       if s_is0 (s_mul sc (co_ct co i k l)) then Some []
       else do vk <- contra e k ;; Some [mul vk (s_mul sc (co_ct co i k l))]) (seq 0 (e_dim e))) ;;
    Some (a ++ concat b)) (seq 0 (e_dim e))) ;;
  Some (concat r).
(** 173-184 component i of the gradient of a scalar *)
Definition grad_scalar_terms (e : expr) (i : nat) : option (list expr) :=
  do r <- opt_all (map (fun j => let sc := co_gt co j i in
     if s_is0 sc then Some [] else do d <- dx1 e j ;; Some [mul d sc]) (seq 0 (e_dim e))) ;;
  Some (concat r).
Definition grad (e : expr) : option expr :=
  do d <- (if co_cart co then grad_cart e
           else if 1 <? num_components e then
             do l <- opt_all (map (fun i => opt_all (map (fun j => do t <- grad_vec_terms e i j ;; sum_list t) (seq 0 (e_dim e))))
                                  (seq 0 (e_dim e))) ;;
             Some (concat l)
           else opt_all (map (fun i => do t <- grad_scalar_terms e i ;; sum_list t) (seq 0 (e_dim e)))) ;;
  do dv <- from_components (e_dim e) d ;;
  Some (simplify dv).

(** ** operators.py 243-306 curl *)
(** 265-270, 274: one component *)
Definition curl_comp_cart (e : expr) (a b : nat) : option expr :=
  do ca <- getitem e b ;; do da <- dx1 ca a ;; do cb <- getitem e a ;; do db <- dx1 cb b ;; sub da db.
(** 286-288, 292: one component with orthogonal coordinates *)
Definition curl_comp_orth (e : expr) (a b : nat) : option expr :=
  do ca <- contra e b ;; do da <- dx1 (mul ca (s_mul (co_hi co b) (co_hi co b))) a ;;
  do cb <- contra e a ;; do db <- dx1 (mul cb (s_mul (co_hi co a) (co_hi co a))) b ;;
  do d <- sub da db ;; Some (mul d (s_inv (co_sg co))).
(** 298-300, 305: np.sum over the components *)
Definition curl_comp_curv (n : nat) (e : expr) (a b : nat) : option expr :=
  do l <- opt_all (map (fun i =>
    do c <- contra e i ;;
    do da <- dx1 (mul c (co_g co b i)) a ;;
    do db <- dx1 (mul c (co_g co a i)) b ;;
    do d <- sub da db ;; Some (mul d (s_inv (co_sg co)))) (seq 0 n)) ;;
  sum_list l.
Definition curl (e : expr) : option expr :=
  if co_cart co then
    if e_dim e =? 3 then
      do w0 <- curl_comp_cart e 1 2 ;; do w1 <- curl_comp_cart e 2 0 ;; do w2 <- curl_comp_cart e 0 1 ;;
      Some (simplify (mkExpr (e_dim e) (e_comps w0 ++ e_comps w1 ++ e_comps w2)))
    else if e_dim e =? 2 then
      do r <- expr_rank e ;;
      if 0 <? r then do w <- curl_comp_cart e 0 1 ;; Some (simplify w)
      else do d1 <- dx1 e 1 ;; do d0 <- dx1 e 0 ;; do w <- from_components (e_dim e) [d1; neg d0] ;; Some (simplify w)
    else None
  else
    do r <- expr_rank e ;;
    if 2 <=? r then None else
    let cc := if co_orth co then curl_comp_orth e else curl_comp_curv (e_dim e) e in
    if e_dim e =? 3 then
      do w0 <- cc 1 2 ;; do w1 <- cc 2 0 ;; do w2 <- cc 0 1 ;;
      do w <- from_components (e_dim e) [w0; w1; w2] ;; Some (simplify w)
    else if e_dim e =? 2 then do w <- cc 0 1 ;; Some (simplify w)
    else None.
End Forms.
Arguments term : clear implicits. Arguments expr : clear implicits. Arguments coords : clear implicits.
