(** DeriveSpec.v -- what "otherwise as self" means. *)
From Coq Require Import Reals List Arith Bool.
From Verif Require Import Base DeriveModel.
Import ListNotations.
Local Open Scope R_scope.

(** s was made by the constructor of one of the classes of the library *)
Definition made (s : space) : Prop := exists k, In (s_cls s) (classes (s_fam s)) /\ construct (s_fam s) (s_cls s) (s_N s) k = Some s.
(** same family, quadrature, domain, data type, coordinates and parameters *)
Definition same_setting (s s' : space) : Prop :=
  s_fam s' = s_fam s /\ s_quad s' = s_quad s /\ s_dom s' = s_dom s /\ s_complex s' = s_complex s /\ s_coords s' = s_coords s
  /\ s_alpha s' = s_alpha s /\ s_beta s' = s_beta s.
(** same basis functions and boundary values *)
Definition same_basis (s s' : space) : Prop := s_cls s' = s_cls s /\ s_bcs s' = s_bcs s /\ s_scaled s' = s_scaled s.
Definition same_padding (s s' : space) : Prop := s_pad s' = s_pad s /\ s_dealias s' = s_dealias s.
(** the padding factor that gives a whole number of points: p = floor(n*p)/n *)
Definition whole (n : nat) (p p' : R) : Prop := (p = 1 /\ p' = 1) \/ (p <> 1 /\ exists z : Z, p' * INR n = IZR z /\ IZR z <= INR n * p < IZR z + 1).
(** the conditions that the basis functions of a class satisfy (documentation of the classes; see C29) *)
Definition both (n : nat) : list name := map (fun k => (L, k)) (firstn n [D; N1; N2; N3; N4; N5]) ++ map (fun k => (Rt, k)) (firstn n [D; N1; N2; N3; N4; N5]).
Definition conditions (f : family) (c : cname) : list name :=
  match c with
  | Upper => [(Rt, D)] | Lower => [(L, D)] | DN => [(L, D); (Rt, N1)] | ND => [(L, N1); (Rt, D)] | UDN => [(Rt, D); (Rt, N1)] | LDN => [(L, D); (L, N1)]
  | Beam => [(L, D); (L, N1); (Rt, N2); (Rt, N3)]
  | Neumann | CombinedNeumann | MikNeumann => match f with Lag => [(L, N1)] | _ => [(L, N1); (Rt, N1)] end
  | Biharmonic | BiPolar => both 2 | Compact3 => both 3 | Compact4 => both 4 | Phi k => both k
  | _ => match f with Lag => [(L, D)] | _ => both 1 end
  end.
Definition dimension (s : space) : nat := s_N s - num_bcs s.
(** the boundary conditions a user gives, as the values of derivatives on the reference domain *)
Definition reference (d : domain) (l : conds) : conds :=
  map (fun e => (fst e, match snd (fst e) with N1 => snd e / factor d | N2 => snd e / factor d ^ 2 | N3 => snd e / factor d ^ 3 | _ => snd e end)) l.
Definition made_tps (T : tps) : Prop :=
  (forall s, In s (t_bases T) -> made s) /\ exists axes dtype coords, tensor (t_comm T) (t_bases T) axes dtype coords = Some T.
(** same communicator, order of transforms, data type and coordinates *)
Definition same_tps (T T' : tps) : Prop := t_comm T' = t_comm T /\ t_axes T' = t_axes T /\ t_complex T' = t_complex T /\ t_coords T' = t_coords T.
