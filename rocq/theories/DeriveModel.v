(** DeriveModel.v -- spaces derived from other spaces: get_unplanned, get_refined, get_dealiased, get_orthogonal, get_homogeneous and
    get_testspace of function spaces (spectralbase.py 1111-1305, 1480-1491; fourier/bases.py 171-199) and tensor product spaces
    (tensorproductspace.py 314-466, 580-634, 1182-1227), with the keyword arguments and defaults of the constructors of all classes.

    A space is the list of what its constructor keeps.  Simplifications: exact reals; boundary values are numbers; coordinates are
    identified by a number (0: none given), quadrature types by letters, data types by real/complex, communicators by a number.
    sympy's work in Generic is left out.  An exception is [None]. *)
From Coq Require Import Reals List Arith Bool.
From Verif Require Import Base.
Import ListNotations.
Local Open Scope R_scope.

Inductive family := Cheb | Leg | ChebU | Ultra | Jac | Lag | Herm | Four.
(** the classes; Orthogonal is R2C/C2C for Fourier (with the flag) *)
Inductive cname := Orthogonal | R2C | C2C | Dirichlet | Heinrichs | Heinrichs2 | Neumann | CombinedNeumann | MikNeumann | Biharmonic | Polar | BiPolar
  | Phi (k : nat) | Upper | Lower | DN | ND | UDN | LDN | Beam | Compact3 | Compact4 | Generic.
Inductive side := L | Rt.
Inductive kind := D | N1 | N2 | N3 | N4 | N5.
Definition name := (side * kind)%type.
Definition conds := list (name * R).
(** the bc argument: a tuple, a dictionary, or a BoundaryConditions object *)
Inductive bcval := Tuple (l : list (option R)) | Dict (l : conds) | Made (l : conds).
Inductive quad := GC | GL | GU | LG | QG | JG | HG | NoQuad.
Inductive domain := Fin (a b : R) | HalfLine | Line.
(** keyword arguments; k_bcs is the key 'bcs' named in the documentation of get_unplanned *)
Record kws := mkK { k_quad : option quad; k_dom : option domain; k_dtype : option bool; k_pad : option R; k_dealias : option bool; k_coords : option nat;
                    k_bc : option bcval; k_bcs : option bcval; k_scaled : option bool; k_alpha : option R; k_beta : option R }.
Definition no_kw := mkK None None None None None None None None None None None.
Record space := mkS { s_fam : family; s_cls : cname; s_N : nat; s_quad : quad; s_dom : domain; s_complex : bool; s_pad : R; s_dealias : bool; s_coords : nat;
                      s_bcs : option conds; s_scaled : option bool; s_alpha : option R; s_beta : option R }.

Definition orth (c : cname) : bool := match c with Orthogonal | R2C | C2C => true | _ => false end.
(** the classes of each family (all __init__ of */bases.py) *)
Definition classes (f : family) : list cname :=
  match f with
  | Cheb => [Orthogonal; Dirichlet; Phi 1; Heinrichs; Heinrichs2; Neumann; CombinedNeumann; MikNeumann; Biharmonic; Polar; Phi 2; Phi 3; Phi 4; Phi 6; Upper; Lower; BiPolar; DN; ND; UDN; LDN; Compact3; Compact4; Generic]
  | Leg => [Orthogonal; Dirichlet; Phi 1; Neumann; Biharmonic; Phi 2; Phi 3; Phi 4; Phi 6; Beam; Upper; BiPolar; DN; Lower; ND; UDN; Compact3; Generic]
  | ChebU => [Orthogonal; Phi 1; Phi 2; Phi 3; Phi 4; Phi 6; Dirichlet; Neumann; Upper; Lower; Biharmonic; Compact3; Generic]
  | Ultra => [Orthogonal; Phi 1; Phi 2; Phi 3; Phi 4; Phi 6; Dirichlet; Neumann; Upper; Lower; Biharmonic; Generic]
  | Jac => [Orthogonal; Phi 1; Phi 2; Phi 3; Phi 4; Dirichlet; Neumann; Upper; Lower; Generic]
  | Lag => [Orthogonal; Dirichlet; Neumann; Generic]
  | Herm => [Orthogonal]
  | Four => [R2C; C2C]
  end.
Definition zeros (n : nat) : bcval := Tuple (repeat (Some 0) n).
(** default of the keyword bc *)
Definition default_bc (f : family) (c : cname) : bcval :=
  match f, c with
  | _, Generic => Dict []
  | Lag, _ => zeros 1
  | _, Upper => Tuple [None; Some 0]
  | ChebU, Lower | Ultra, Lower => Tuple [None; Some 0]
  | _, Lower => Tuple [Some 0; None]
  | _, (Biharmonic | BiPolar | Beam) => zeros 4
  | _, Compact3 => zeros 6
  | _, Compact4 => zeros 8
  | _, Phi k => zeros (2 * k)
  | _, _ => zeros 2
  end.
(** classes that turn a tuple into conditions themselves (None: BoundaryConditions does) *)
Definition own_names (f : family) (c : cname) : option (list name) :=
  match f, c with
  | Lag, Neumann => Some [(L, N1)]
  | _, (Neumann | CombinedNeumann | MikNeumann) => Some [(L, N1); (Rt, N1)]
  | _, DN => Some [(L, D); (Rt, N1)]
  | _, ND => Some [(L, N1); (Rt, D)]
  | _, UDN => Some [(Rt, D); (Rt, N1)]
  | _, LDN => Some [(L, D); (L, N1)]
  | _, Beam => Some [(L, D); (L, N1); (Rt, N2); (Rt, N3)]
  | _, _ => None
  end.
Definition ders (n : nat) : list kind := firstn n [D; N1; N2; N3; N4; N5].
(** BoundaryConditions(tuple): spectralbase.py 1954-1977 *)
Definition names_of_length (n : nat) : option (list name) :=
  match n with
  | 1 => Some [(L, D)]
  | 4 | 6 | 8 | 10 | 12 => Some (map (fun k => (L, k)) (ders (Nat.div n 2)) ++ map (fun k => (Rt, k)) (ders (Nat.div n 2)))
  | _ => None
  end%nat.
Fixpoint zip_some (ns : list name) (l : list (option R)) : option conds :=
  match ns, l with
  | [], [] => Some []
  | n :: ns, Some v :: l => match zip_some ns l with Some r => Some ((n, v) :: r) | None => None end
  | _, _ => None
  end.
Definition of_tuple (own : option (list name)) (l : list (option R)) : option conds :=
  match own with
  | Some ns => zip_some ns l
  | None => match l with
            | [a; b] => Some ((match a with Some v => [((L, D), v)] | None => [] end) ++ (match b with Some v => [((Rt, D), v)] | None => [] end))
            | _ => match names_of_length (length l) with Some ns => zip_some ns l | None => None end
            end
  end.
(** spectralbase.py 1988-2003: derivatives are rescaled to the reference domain *)
Definition factor (d : domain) : R := match d with Fin a b => 2 / (b - a) | _ => 1 end.
Definition rescale1 (df : R) (e : name * R) : name * R :=
  match snd (fst e) with N1 => (fst e, snd e / df) | N2 => (fst e, snd e / df ^ 2) | N3 => (fst e, snd e / df ^ 3) | _ => e end.
(** is the domain handed to BoundaryConditions?  (not in chebyshevu.CompactNeumann for tuples and chebyshevu.Generic) *)
Definition with_domain (f : family) (c : cname) (b : bcval) : bool :=
  match f, c, b with ChebU, Neumann, Tuple _ => false | ChebU, Generic, _ => false | _, _, _ => true end.
Definition make_bcs (f : family) (c : cname) (d : domain) (b : bcval) : option conds :=
  let df := if with_domain f c b then factor d else 1 in
  match b with
  | Tuple l => match of_tuple (own_names f c) l with Some r => Some (map (rescale1 df) r) | None => None end
  | Dict l => Some (map (rescale1 df) l)
  | Made l => Some l   (* chebyshevu.Generic calls BoundaryConditions again, without a domain: the factor is 1 *)
  end.
Definition accepts_scaled (f : family) (c : cname) : bool :=
  match f, c with
  | Cheb, (Heinrichs | Heinrichs2) | Leg, Dirichlet => true
  | ChebU, (Dirichlet | Biharmonic | Phi 1 | Phi 2) => true
  | _, _ => false
  end.
Definition default_quad (f : family) : quad := match f with Cheb => GC | Leg => LG | ChebU => GU | Ultra => QG | Jac => JG | Lag => LG | Herm => HG | Four => NoQuad end.
Definition quad_ok (f : family) (q : quad) : bool := match f, q with Cheb, (GC | GL | GU) => true | Cheb, _ => false | ChebU, (GU | GC) => true | ChebU, _ => false | _, _ => true end.
Definition opt {A} (o : option A) (d : A) : A := match o with Some x => x | None => d end.
(** spectralbase.py 51-53 *)
Definition set_pad (n : nat) (p : R) : R := if Req_EM_T p 1 then 1 else if Nat.eqb n 0 then 1 else IZR (Int_part (INR n * p)) / INR n.
Definition get_quad (f : family) (c : cname) (o : option quad) : quad :=
  match f, c with Lag, Generic => opt o LG | Lag, _ => LG | Herm, _ => HG | Four, _ => NoQuad | _, _ => opt o (default_quad f) end.
Definition get_dom (f : family) (c : cname) (o : option domain) : domain :=
  match f, c with Lag, Generic => opt o HalfLine | Lag, _ => HalfLine | Herm, _ => Line | Four, _ => opt o (Fin 0 (2 * PI)) | _, _ => opt o (Fin (-1) 1) end.
Definition get_alpha (f : family) (k : kws) : option R :=
  match f with Cheb => Some (-(1/2)) | Leg => Some 0 | ChebU => Some (1/2) | Ultra | Jac => Some (opt (k_alpha k) 0) | _ => None end.
Definition get_beta (f : family) (k : kws) : option R :=
  match f with Cheb => Some (-(1/2)) | Leg => Some 0 | ChebU => Some (1/2) | Ultra => Some (opt (k_alpha k) 0) | Jac => Some (opt (k_beta k) 0) | _ => None end.
(** the constructors *)
Definition construct (f : family) (c : cname) (n : nat) (k : kws) : option space :=
  let q := get_quad f c (k_quad k) in
  let d := get_dom f c (k_dom k) in
  let mk b := Some (mkS f c n q d (match c with R2C => false | C2C => true | _ => opt (k_dtype k) false end) (set_pad n (opt (k_pad k) 1)) (opt (k_dealias k) false)
                       (opt (k_coords k) 0%nat) b (if accepts_scaled f c then Some (opt (k_scaled k) false) else None) (get_alpha f k) (get_beta f k)) in
  if quad_ok f q then
    if orth c then mk None
    else match make_bcs f c d (opt (k_bc k) (default_bc f c)) with Some b => mk (Some b) | None => None end
  else None.

(** dict.update *)
Definition over {A} (o d : option A) : option A := match o with Some _ => o | None => d end.
Definition update (d k : kws) : kws :=
  mkK (over (k_quad k) (k_quad d)) (over (k_dom k) (k_dom d)) (over (k_dtype k) (k_dtype d)) (over (k_pad k) (k_pad d)) (over (k_dealias k) (k_dealias d)) (over (k_coords k) (k_coords d))
      (over (k_bc k) (k_bc d)) (over (k_bcs k) (k_bcs d)) (over (k_scaled k) (k_scaled d)) (over (k_alpha k) (k_alpha d)) (over (k_beta k) (k_beta d)).
(** the dictionary d of get_unplanned and get_refined (1221-1233, 1263-1275); Fourier: 178-181, 194-197 *)
Definition kw_of (s : space) : kws :=
  match s_fam s with
  | Four => mkK None (Some (s_dom s)) None (Some (s_pad s)) (Some (s_dealias s)) (Some (s_coords s)) None None None None None
  | _ => mkK (Some (s_quad s)) (Some (s_dom s)) (Some (s_complex s)) (Some (s_pad s)) (Some (s_dealias s)) (Some (s_coords s))
             (match s_bcs s with Some b => Some (Made b) | None => None end) None (s_scaled s) (s_alpha s) (s_beta s)
  end.
Definition get_unplanned (s : space) (k : kws) : option space := construct (s_fam s) (s_cls s) (s_N s) (update (kw_of s) k).
Definition get_refined (s : space) (m : nat) (k : kws) : option space := construct (s_fam s) (s_cls s) m (update (kw_of s) k).
(** 1129-1146, fourier 185-191 *)
Definition with_pad (d : kws) (p : R) (b : bool) : kws :=
  mkK (k_quad d) (k_dom d) (k_dtype d) (Some p) (Some b) (k_coords d) (k_bc d) (k_bcs d) (k_scaled d) (k_alpha d) (k_beta d).
Definition get_dealiased (s : space) (p : R) (b : bool) (k : kws) : option space :=
  let d := construct (s_fam s) (s_cls s) (s_N s) (update (with_pad (kw_of s) p b) k) in
  match s_fam s with Four => d | _ => if Req_EM_T p 1 then if b then d else Some s else d end.
(** 1292-1305, fourier 174-175 *)
Definition without_bc (d : kws) : kws := mkK (k_quad d) (k_dom d) (k_dtype d) (k_pad d) (k_dealias d) (k_coords d) None (k_bcs d) (k_scaled d) (k_alpha d) (k_beta d).
Definition get_homogeneous (s : space) (k : kws) : option space :=
  construct (s_fam s) (s_cls s) (s_N s) (update (without_bc (kw_of s)) k).
(** 1480-1491 and get_orthogonal of every family *)
Definition without_scaled (d : kws) : kws := mkK (k_quad d) (k_dom d) (k_dtype d) (k_pad d) (k_dealias d) (k_coords d) (k_bc d) (k_bcs d) None (k_alpha d) (k_beta d).
Definition get_orthogonal (s : space) (k : kws) : option space :=
  match s_fam s with
  | Four => get_unplanned s k
  | f => construct f Orthogonal (s_N s) (update (without_scaled (without_bc (kw_of s))) k)
  end.
(** dim(): the slice of the class; the last mode of R2C etc. is not modelled *)
Definition num_bcs (s : space) : nat := match s_bcs s with Some b => length b | None => 0 end.
Definition has_class (f : family) (c : cname) : bool :=
  existsb (fun x => match x, c with Phi a, Phi b => Nat.eqb a b | _, _ => false end) (classes f).
(** get_testspace(kind='PG'): 1185-1204 *)
Definition get_testspace (s : space) (k : kws) : option space :=
  let d := update (without_scaled (without_bc (kw_of s))) k in
  let dim := num_bcs s in
  if Nat.eqb dim 0 || negb (has_class (s_fam s) (Phi 1)) then get_unplanned s d
  else if has_class (s_fam s) (Phi dim) then construct (s_fam s) (Phi dim) (s_N s + dim) d else None.

(** ** tensor product spaces *)
Record tps := mkT { t_comm : nat; t_bases : list space; t_axes : list (list nat); t_complex : bool; t_coords : nat }.
Fixpoint all_some {A} (l : list (option A)) : option (list A) :=
  match l with [] => Some [] | Some x :: r => match all_some r with Some r => Some (x :: r) | None => None end | None :: _ => None end.
Definition last_class (bases : list space) (axes : list (list nat)) : option cname :=
  match rev axes with ax :: _ => match rev ax with a :: _ => match nth_error bases a with Some s => Some (s_cls s) | None => None end | [] => None end | [] => None end.
(** TensorProductSpace.__init__ (314-400) without collapse_fourier; axes, dtype and coordinates may be left out *)
Definition tensor (comm : nat) (bases : list space) (axes : option (list (list nat))) (dtype : option bool) (coords : option nat) : option tps :=
  match all_some (map (fun b => get_unplanned b no_kw) bases) with
  | None => None
  | Some bs =>
      let ax := opt axes (map (fun i => [i]) (seq 0 (length bases))) in
      match last_class bs ax with
      | None => None
      | Some c =>
          let dt := opt dtype (match c with C2C => true | _ => false end) in
          if match c with C2C => dt | R2C => negb dt | _ => true end
          then Some (mkT comm bs ax dt (opt coords 0%nat)) else None
      end
  end.
(** 580-599, 1182-1189, 1219-1227: the sub-communicators of self are used again *)
Definition t_refined (T : tps) (Ns : list nat) : option tps :=
  if Nat.eqb (length Ns) (length (t_bases T)) then
    match all_some (map (fun p => get_refined (fst p) (snd p) no_kw) (combine (t_bases T) Ns)) with
    | Some bs => tensor (t_comm T) bs (Some (t_axes T)) (Some (t_complex T)) (Some (t_coords T)) | None => None end
  else None.
Definition t_orthogonal (T : tps) : option tps :=
  match all_some (map (fun b => get_orthogonal b no_kw) (t_bases T)) with
  | Some bs => tensor (t_comm T) bs (Some (t_axes T)) (Some (t_complex T)) (Some (t_coords T)) | None => None end.
Definition t_testspace (T : tps) : option tps :=
  match all_some (map (fun b => get_testspace b no_kw) (t_bases T)) with
  | Some bs => tensor (t_comm T) bs (Some (t_axes T)) (Some (t_complex T)) (Some (t_coords T)) | None => None end.
(** 601-634: return TensorProductSpace(comm, bases); comm (number 0) is MPI.COMM_WORLD *)
Definition t_unplanned (T : tps) : option tps :=
  match all_some (map (fun b => get_unplanned b no_kw) (t_bases T)) with Some bs => tensor 0 bs None None None | None => None end.
Definition t_homogeneous (T : tps) : option tps :=
  match all_some (map (fun b => get_homogeneous b no_kw) (t_bases T)) with Some bs => tensor 0 bs None None None | None => None end.
