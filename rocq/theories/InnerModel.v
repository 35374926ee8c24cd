(** InnerModel.v -- forms/inner.py: inner() for bilinear and linear forms (lines 273-488).

    [Expr] objects and sympy expressions are those of FormsModel.v.  A one-dimensional basis is an
    identifier ([space]); the one-dimensional matrices come from [ip], the model of
    spectralbase.inner_product, which returns None for a matrix without diagonals (len(AA) == 0).
    Numbers are exact reals; complex coefficients are not modelled. *)
From Coq Require Import Arith ZArith Reals List Bool String.
From Verif Require Import FormsModel.
Import ListNotations.

Definition space := nat.

(** A one-dimensional matrix with its trial space (trialfunction[0]). *)
Record mat := mkMat { m_trial : space; m_ent : nat -> nat -> R }.

(** TPMatrix (or a one-dimensional matrix): scale, global_index, one matrix for each axis. *)
Record tpm := mkTpm { p_scale : R; p_row : nat; p_col : nat; p_mats : list mat }.

Notation "'do' x <- v ;; k" := (obind v (fun x => k)) (at level 200, x name, v at level 100, k at level 200).

Section Inner.
Context {S : Sym}.

(** One item of the list returned by utilities.split (494-534): a defaultdict with the value 1 for
    missing keys; the keys besides 'coeff' are the names of the symbols. *)
Record dict := mkDict { d_coeff : R; d_fun : list (string * S) }.
Definition lookup (d : dict) (name : string) : S :=
  match find (fun kv => String.eqb (fst kv) name) (d_fun d) with
  | Some kv => snd kv
  | None => s_int 1
  end.

(** 'xyzrs'[i], line 419; an IndexError for i >= 5 *)
Definition axis_names : list string := ["x"; "y"; "z"; "r"; "s"]%string.

Variable split : S -> option (list dict).                        (* utilities.split *)
Variable ip : space -> nat -> space -> nat -> S -> option mat.   (* inner_product((tt,a),(ts,b),msi) *)
Variable bcspace : space -> option space.                        (* get_bc_space if has_nonhomogeneous_bcs *)
Variable co : coords S.

(** The metric tensor of line 392 (coordinates.py 240-249); an index >= dim raises IndexError. *)
Variable gij : nat -> nat -> S.

(** 398-400: the factor that multiplies the product of the two basis functions *)
Definition dV (ts us g : S) : S :=
  s_refine (s_simplify (s_mul (s_mul (s_mul ts us) (co_sg co)) g)).

(** 416-442: one axis. The matrix of the trial basis; the entry of DM (None: the number 0) and
    whether it sets has_bcs. *)
Definition axis_mats (tt : space) (a : nat) (ts : space) (b : nat) (ms : S)
  : option (mat * (option mat * bool)) :=
  match ip tt a ts b ms with
  | None => None                                  (* sc = 0 *)
  | Some AA =>
      Some (AA, match bcspace ts with
                | None => (Some AA, false)
                | Some tsc => match ip tt a tsc b ms with
                              | Some BB => (Some BB, true)
                              | None => (None, false)
                              end
                end)
  end.

(** 416: for i, (a, b) in enumerate(zip(b0, b1)) *)
Fixpoint all_axes (i : nat) (tt ts : nat -> space) (b0 b1 : list nat) (dv : dict)
  : option (option (list (mat * (option mat * bool)))) :=
  match b0, b1 with
  | a :: b0, b :: b1 =>
      match nth_error axis_names i with
      | None => None                               (* IndexError *)
      | Some name =>
          match all_axes (i + 1) tt ts b0 b1 dv with
          | None => None
          | Some rest =>
              Some (match axis_mats (tt i) a (ts i) b (lookup dv name), rest with
                    | Some m, Some l => Some (m :: l)
                    | _, _ => None                 (* sc = 0 *)
                    end)
          end
      end
  | _, _ => Some (Some [])
  end.

(** the matrices in DM; None if one of them is the number 0 (TPMatrix raises) *)
Definition dm_list (l : list (mat * (option mat * bool))) : option (list mat) :=
  opt_all (map (fun x => fst (snd x)) l).

Definition count_bc (ts : nat -> space) (n : nat) : nat :=
  List.length (filter (fun i => match bcspace (ts i) with Some _ => true | None => false end) (seq 0 n)).

(** 464-480: the matrices for inhomogeneous boundary conditions *)
Definition bc_mats (sc : R) (p q : nat) (ts : nat -> space) (l : list (mat * (option mat * bool)))
  : option (list tpm) :=
  if existsb (fun x => snd (snd x)) l then
    if List.length l =? 1 then
      match dm_list l with Some d => Some [mkTpm sc p q d] | None => None end
    else
      match count_bc ts (List.length l) with
      | 1 => match dm_list l with Some d => Some [mkTpm sc p q d] | None => None end
      | 2 => match l with
             | (m0, (d0, _)) :: (m1, (d1, _)) :: _ =>
                 Some ((match d1 with Some d1 => [mkTpm sc p q [m0; d1]] | None => [] end) ++
                       (match d0 with Some d0 => [mkTpm sc p q [d0; m1]] | None => [] end) ++
                       (match d0, d1, dm_list l with
                        | Some _, Some _, Some d => [mkTpm sc p q d]
                        | _, _, _ => []
                        end))
             | _ => None
             end
      | _ => Some []
      end
  else Some [].

(** 412-480: one item of the split *)
Definition item_mats (p q : nat) (tt ts : nat -> space) (b0 b1 : list nat) (dv : dict)
  : option (list tpm) :=
  match all_axes 0 tt ts b0 b1 dv with
  | None => None
  | Some None => Some []                            (* 444-445: sc == 0 *)
  | Some (Some l) =>
      if Req_EM_T (d_coeff dv) 0 then Some [] else
      match bc_mats (d_coeff dv) p q ts l with
      | None => None
      | Some bcs => Some (mkTpm (d_coeff dv) p q (map fst l) :: bcs)
      end
  end.

Definition concat_opt {A} (l : list (option (list A))) : option (list A) :=
  match opt_all l with Some r => Some (List.concat r) | None => None end.

(** 398-480: one pair of terms. [tsp p i] and [usp q i] are the one-dimensional bases of the scalar
    components of the test and trial spaces (flatten()[p][i]). *)
Definition pair_mats (tsp usp : nat -> nat -> space) (g : S) (t u : term S) : option (list tpm) :=
  let d := dV (t_sc t) (t_sc u) g in
  if negb (List.length (t_der t) =? List.length (t_der u)) then None
  else if s_is0 d then Some [] else
  match split d with
  | None => None
  | Some items => concat_opt (map (item_mats (t_ind t) (t_ind u) (tsp (t_ind t)) (usp (t_ind u)) (t_der t) (t_der u)) items)
  end.

(** 394-397: g = 1 for one component, gij[vec_i, vec_j] otherwise, and skip zeros *)
Definition metric (dim ncomp i j : nat) : option S :=
  if ncomp =? 1 then Some (s_int 1)
  else if (dim <=? i) || (dim <=? j) then None       (* IndexError *)
  else Some (gij i j).

Definition comps_mats (tsp usp : nat -> nat -> space) (dim ncomp i j : nat) (ct cu : list (term S))
  : option (list tpm) :=
  match metric dim ncomp i j with
  | None => None
  | Some g => if s_is0 g then Some []
              else concat_opt (flat_map (fun t => map (fun u => pair_mats tsp usp g t u) cu) ct)
  end.

(** 378-480: the matrices of the form (test, trial), not recursive *)
Definition inner_mats (tsp usp : nat -> nat -> space) (test trial : expr S) : option (list tpm) :=
  do rt <- expr_rank test ;; do ru <- expr_rank trial ;;
  if negb (rt =? ru) then None                       (* 379 *)
  else concat_opt
    (flat_map (fun i => map (fun j => comps_mats tsp usp (e_dim test) (num_components test) i j
                                        (nth i (e_comps test) []) (nth j (e_comps trial) []))
                            (seq 0 (num_components trial)))
              (seq 0 (num_components test))).

(** 287-358: the recursive algorithm for test functions of vector spaces (tensor_rank 1) and tensor spaces
    (tensor_rank 2).  One factor with component [i] of the test expression: the linear form multiplies the test
    expression with the metric (321), the bilinear form the trial expression (354); 309 and 347 for tensors. *)
Definition rec1_row (lin : bool) (tsp usp : nat -> nat -> space) (test trial : expr S) (i : nat) : option (list tpm) :=
  concat_opt (map (fun j =>
        if s_is0 (gij i j) then Some [] else
        do te <- getitem test i ;; do tr <- getitem trial j ;;
        if lin then inner_mats tsp usp (mul te (gij i j)) tr else inner_mats tsp usp te (mul tr (gij i j)))
      (seq 0 (e_dim trial))).
Definition rec2_row (tsp usp : nat -> nat -> space) (test trial : expr S) (i j : nat) : option (list tpm) :=
  concat_opt (flat_map (fun k =>
        if s_is0 (gij i k) then [] else
        map (fun l =>
          if s_is0 (gij j l) then Some [] else
          do ti <- getitem test i ;; do te <- getitem ti j ;;
          do tk <- getitem trial k ;; do tr <- getitem tk l ;;
          inner_mats tsp usp (mul (mul te (gij i k)) (gij j l)) tr)
        (seq 0 (e_dim trial))) (seq 0 (e_dim trial))).

(** 273-358, 483-487: the matrices returned for a bilinear form (or with return_matrices); [trank] is the
    tensor_rank of the test function.  The trial argument is an expression: a plain TrialFunction u is Expr(u). *)
Definition inner_bilinear (trank : nat) (tsp usp : nat -> nat -> space) (test trial : expr S) : option (list tpm) :=
  do rt <- expr_rank test ;;
  if (trank =? 0) || (rt =? 0) then inner_mats tsp usp test trial
  else match trank with
       | 1 => concat_opt (map (rec1_row false tsp usp test trial) (seq 0 (e_dim test)))
       | 2 => concat_opt (flat_map (fun i => map (rec2_row tsp usp test trial i) (seq 0 (e_dim test))) (seq 0 (e_dim test)))
       | _ => Some []
       end.

(** TPMatrix.matvec: the product with a coefficient array, indexed by one (basis, index) pair for each axis, where
    the basis is the trial basis or its boundary basis; [n] is the number of functions of a basis. *)
Fixpoint apply_mats (i : nat) (ms : list mat) (k : nat -> nat) (n : space -> nat) (v : list (space * nat) -> R) : R :=
  match ms with
  | [] => v []
  | m :: ms => fold_right Rplus 0%R
      (map (fun j => (m_ent m (k i) j * apply_mats (i + 1) ms k n (fun l => v ((m_trial m, j) :: l)))%R)
           (seq 0 (n (m_trial m))))
  end.
(** 492-503: sum of the products.  A vector-valued output is filled row by row (497-498, global_index[0]); for a
    scalar one (495-496, 499-500) the row number is not used. *)
Definition linear_sum (rows : option nat) (A : list tpm) (k : nat -> nat) (n : space -> nat)
  (uhat : nat -> list (space * nat) -> R) : R :=
  fold_right Rplus 0%R
    (map (fun m => if match rows with Some p => p_row m =? p | None => true end
                   then (p_scale m * apply_mats 0 (p_mats m) k n (uhat (p_col m)))%R else 0%R) A).

(** 290-323, 483-507: component [p] of the output array of the linear form, at the index [k]; the Function has
    the coefficients [uhat] (one array for each scalar component).  Simplification: for trank > 0 and a scalar test
    expression the Function is in a composite space too. *)
Definition inner_linear (trank : nat) (tsp usp : nat -> nat -> space) (test trial : expr S) (p : nat) (k : nat -> nat)
  (n : space -> nat) (uhat : nat -> list (space * nat) -> R) : option R :=
  do rt <- expr_rank test ;;
  if (trank =? 0) || (rt =? 0) then
    do A <- inner_mats tsp usp test trial ;;
    Some (linear_sum (if trank =? 0 then None else Some p) A k n uhat)
  else match trank with
       | 1 => do A <- rec1_row true tsp usp test trial p ;; Some (linear_sum None A k n uhat)
       | 2 => do A <- rec2_row tsp usp test trial (p / e_dim test) (p mod e_dim test) ;; Some (linear_sum None A k n uhat)
       | _ => Some 0%R
       end.

End Inner.
Arguments dict : clear implicits.
