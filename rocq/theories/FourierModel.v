(** FourierModel.v -- shenfun/fourier/bases.py (R2C, C2C), shenfun/fourier/__init__.py.

    One-dimensional arrays; FFTW's fftn/ifftn/rfftn/irfftn are modelled by the sums they
    are documented to compute (unnormalised; [w] is exp(2 pi i / N), [conj] complex
    conjugation; irfftn ignores the imaginary parts of the zero and Nyquist
    coefficients); the plan's normalisation is 1/N.  Exact arithmetic. *)
From Coq Require Import Arith ZArith List Bool.
From Verif Require Import Base Fld SparseModel.
Import ListNotations.
Local Open Scope nat_scope.

(** numpy.fft.fftfreq(N, 1/N).astype(int): N1 = (N-1)//2+1 entries 0, 1, .. followed by
    -(N//2), .., -1 (the floating point division by N*(1/N) is treated in FourierFloat.v) *)
Definition fftfreq (N i : nat) : Z :=
  let N1 := (N - 1) / 2 + 1 in
  if i <? N1 then Z.of_nat i else (- Z.of_nat (N / 2) + Z.of_nat (i - N1))%Z.
(** numpy.fft.rfftfreq(N, 1/N).astype(int), length N//2+1 *)
Definition rfftfreq (N i : nat) : Z := Z.of_nat i.

(** bases.py 560-568 C2C.wavenumbers, 334-342 R2C.wavenumbers (scaled=False) *)
Definition wavenumbers_c2c (N : nat) (eliminate : bool) (i : nat) : Z :=
  if (N mod 2 =? 0) && eliminate && (i =? N / 2) then 0%Z else fftfreq N i.
Definition wavenumbers_r2c (N : nat) (eliminate : bool) (i : nat) : Z :=
  if (N mod 2 =? 0) && eliminate && (i =? N / 2 + 1 - 1) then 0%Z else rfftfreq N i.

(** bases.py 344-359 and 570-579 get_mask_nyquist; None for odd N *)
Definition mask_c2c (N : nat) : option (nat -> bool) :=
  if N mod 2 =? 0 then Some (fun i => negb (i =? N / 2)) else None.
Definition mask_r2c (N : nat) : option (nat -> bool) :=
  if N mod 2 =? 0 then Some (fun i => negb (i =? N / 2 + 1 - 1)) else None.

Section Fourier.
  Variable K : Fld.
  Notation vec := (nat -> K).
  Local Open Scope fld_scope.

  (** bases.py 228-243 mask_nyquist: u_hat *= mask *)
  Definition mask_nyquist (mask : option (nat -> bool)) (u : vec) : vec :=
    match mask with
    | None => u
    | Some m => fun i => u i * (if m i then 1 else 0)
    end.

  (** ** transforms *)
  (** fftn and ifftn (normalise_idft=False), length N *)
  Definition fftn (N : nat) (w : K) (u : vec) : vec :=
    fun k => fsum N (fun j => u j * fpow (finv w) (j * k)).
  Definition ifftn (N : nat) (w : K) (c : vec) : vec :=
    fun j => fsum N (fun k => c k * fpow w (j * k)).

  (** dst[lo:hi] (op)= src[lo:hi] for arrays with lengths Ld and Ls; None is the ValueError
      for shapes that do not broadcast *)
  Definition slice_op (op : K -> K -> K) (Ld Ls : nat) (lo : Z) (hi : option Z) (src dst : vec) : option vec :=
    let st L := pyidx L lo in
    let len L := (match hi with None => L | Some h => pyidx L h end - st L)%nat in
    if (len Ls =? len Ld)%nat
    then Some (fun i => if (st Ld <=? i)%nat && (i <? st Ld + len Ld)%nat
                        then op (dst i) (src (st Ls + (i - st Ld))%nat) else dst i)
    else if (len Ls =? 1)%nat
    then Some (fun i => if (st Ld <=? i)%nat && (i <? st Ld + len Ld)%nat
                        then op (dst i) (src (st Ls)) else dst i)
    else None.
  Definition bind (o : option vec) (f : vec -> option vec) : option vec :=
    match o with None => None | Some x => f x end.
  Notation half := (fdiv 1 (1 + 1)).

  (** bases.py 592-599 C2C._truncation_forward from length Np to length N (different arrays) *)
  Definition trunc_c2c (N Np : nat) (p : vec) : option vec :=
    bind (slice_op (fun _ x => x) N Np 0 (Some (Z.of_nat (N / 2) + 1)%Z) p (fun _ => 0))
         (fun t => slice_op fadd N Np (- Z.of_nat (N / 2)) None p t).
  (** bases.py 601-619 C2C._padding_backward from length N to length Np *)
  Definition pad_c2c (N Np : nat) (t : vec) : option vec :=
    bind (slice_op (fun _ x => x) Np N 0 (Some (Z.of_nat (N / 2) + 1)%Z) t (fun _ => 0))
    (fun p => bind (slice_op (fun _ x => x) Np N (- Z.of_nat (N / 2)) None t p)
    (fun p => Some (if (N mod 2 =? 0)%nat
                    then let p := upd p (N / 2)%nat (p (N / 2)%nat * half) in
                         let q := pyidx Np (- Z.of_nat (N / 2)) in upd p q (p q * half)
                    else p))).
  (** bases.py 621-624: dealias_direct, padded_array[N//3 : -(N//3)+1] = 0 *)
  Definition dealias_c2c (N : nat) (c : vec) : vec :=
    let lo := pyidx N (Z.of_nat (N / 3)) in
    let hi := pyidx N (- Z.of_nat (N / 3) + 1) in
    fun i => if (lo <=? i)%nat && (i <? hi)%nat then 0 else c i.
  (** bases.py 432-435: padded_array[N//3 : None] = 0 for the N//2+1 coefficients *)
  Definition dealias_r2c (N : nat) (c : vec) : vec :=
    let lo := pyidx (N / 2 + 1) (Z.of_nat (N / 3)) in
    fun i => if (lo <=? i)%nat && (i <? N / 2 + 1)%nat then 0 else c i.

  (** C2C.forward (bases.py 158-175): transform, truncate, normalise; [Np] is the length in
      physical space, equal to N without padding (then the arrays are identical) *)
  Definition forward_c2c (N Np : nat) (w : K) (u : vec) : option vec :=
    let c := fftn Np w u in
    match (if (Np =? N)%nat then Some c else trunc_c2c N Np c) with
    | None => None
    | Some t => Some (fun k => t k * finv (fnat Np))
    end.
  (** C2C.backward (spectralbase.py 265-313 with bases.py 550-558) *)
  Definition backward_c2c (N Np : nat) (w : K) (dealias : bool) (c : vec) : option vec :=
    match (if (Np =? N)%nat then Some (if dealias then dealias_c2c N c else c) else pad_c2c N Np c) with
    | None => None
    | Some p => Some (ifftn Np w p)
    end.

  (** ** real transforms *)
  Variable conj : K -> K.
  Definition re (x : K) : K := (x + conj x) * half.
  (** rfftn: the first N//2+1 entries of fftn *)
  Definition rfftn (N : nat) (w : K) (u : vec) : vec := fftn N w u.
  (** irfftn of the half-complex array [c] to length N *)
  Definition irfftn (N : nat) (w : K) (c : vec) : vec := fun j =>
    fsum N (fun k =>
      (if (k =? 0)%nat then re (c 0%nat)
       else if (2 * k <? N)%nat then c k
       else if (2 * k =? N)%nat then re (c k)
       else conj (c (N - k)%nat)) * fpow w (j * k)).
  (** bases.py 404-414 R2C._truncation_forward to n = N//2+1 coefficients *)
  Definition trunc_r2c (N Np : nat) (p : vec) : option vec :=
    let n := (N / 2 + 1)%nat in
    bind (slice_op (fun _ x => x) n (Np / 2 + 1) 0 (Some (Z.of_nat n)) p (fun _ => 0))
    (fun t => Some (if (N mod 2 =? 0)%nat then upd t (n - 1)%nat (re (t (n - 1)%nat) * (1 + 1)) else t)).
  (** bases.py 416-430 R2C._padding_backward *)
  Definition pad_r2c (N Np : nat) (t : vec) : option vec :=
    let n := (N / 2 + 1)%nat in
    bind (slice_op (fun _ x => x) (Np / 2 + 1) n 0 (Some (Z.of_nat n)) t (fun _ => 0))
    (fun p => Some (if (N mod 2 =? 0)%nat then upd p (n - 1)%nat (re (p (n - 1)%nat) * half) else p)).
  Definition forward_r2c (N Np : nat) (w : K) (u : vec) : option vec :=
    let c := rfftn Np w u in
    match (if (Np =? N)%nat then Some c else trunc_r2c N Np c) with
    | None => None
    | Some t => Some (fun k => t k * finv (fnat Np))
    end.
  Definition backward_r2c (N Np : nat) (w : K) (dealias : bool) (c : vec) : option vec :=
    match (if (Np =? N)%nat then Some (if dealias then dealias_r2c N c else c) else pad_r2c N Np c) with
    | None => None
    | Some p => Some (irfftn Np w p)
    end.

  (** C2C.convolve(u, v, fast=True) and R2C.convolve(u, v, fast=True): bases.py 635-643, 457-465 *)
  Definition convolve_fast_c2c (N Np : nat) (w : K) (u v : vec) : option vec :=
    bind (backward_c2c N Np w false u) (fun u2 => bind (backward_c2c N Np w false v) (fun u3 =>
      forward_c2c N Np w (fun j => u2 j * u3 j))).
  Definition convolve_fast_r2c (N Np : nat) (w : K) (u v : vec) : option vec :=
    bind (backward_r2c N Np w false u) (fun u2 => bind (backward_r2c N Np w false v) (fun u3 =>
      forward_r2c N Np w (fun j => u2 j * u3 j))).

  (** ** C2C.convolve(fast=False): bases.py 645-655 and cython/convolve.pyx 11-31 *)
  (** a Python index into an array of length L *)
  Definition wrap (L : nat) (p : Z) : nat := Z.to_nat (if (p <? 0)%Z then p + Z.of_nat L else p).
  Definition halved (N : nat) (u : vec) (m : Z) : K :=
    if (N mod 2 =? 0)%nat && (Z.abs m =? Z.of_nat (N / 2))%Z then u (wrap N m) * half else u (wrap N m).
  Definition convolve_1D (N : nat) (u v : vec) : vec :=
    let Np := if (N mod 2 =? 0)%nat then (N + 1)%nat else N in
    for_up Np 0 (fun a uv => for_up Np 0 (fun b uv =>
      let m := fftfreq Np a in let n := fftfreq Np b in
      let p := wrap (2 * N) (m + n) in
      upd uv p (uv p + halved N u m * halved N v n)) uv) (fun _ => 0).

  (** R2C.convolve(fast=False): bases.py 467-472 and convolve.pyx 34-66; uv has N+1 entries *)
  Definition halved_real (N : nat) (u : vec) (m : Z) : K :=
    let a := Z.to_nat (Z.abs m) in
    if (N mod 2 =? 0)%nat then
      if (Z.abs m =? Z.of_nat (N / 2))%Z then u a * half
      else if (0 <=? m)%Z then u (Z.to_nat m) else conj (u a)
    else if (0 <=? m)%Z then u (Z.to_nat m) else conj (u a).
  Definition convolve_real_1D (N : nat) (u v : vec) : vec :=
    let Np := if (N mod 2 =? 0)%nat then (N + 1)%nat else N in
    for_up Np 0 (fun a uv => for_up Np 0 (fun b uv =>
      let m := fftfreq Np a in let n := fftfreq Np b in
      if (0 <=? m + n)%Z
      then upd uv (Z.to_nat (m + n)) (uv (Z.to_nat (m + n)) + halved_real N u m * halved_real N v n)
      else uv) uv) (fun _ => 0).

  (** ** energy_fourier (fourier/__init__.py) *)
  Definition abs2 (x : K) : K := x * conj x.
  Definition sum_from_to (lo hi : nat) (f : vec) : K := fsum (hi - lo) (fun t => f (lo + t)%nat).
  (** 1D basis, lines 23-38: the parity test is on the number n of coefficients *)
  Definition energy_1d (r2c : bool) (n : nat) (u : vec) : K :=
    let f k := abs2 (u k) in
    if r2c then
      if (n mod 2 =? 0)%nat
      then (1 + 1) * sum_from_to 1 (n - 1) f + f 0%nat + f (n - 1)%nat
      else (1 + 1) * sum_from_to 1 n f + f 0%nat
    else fsum n f.
  (** lines 48-61: tensor product space, data aligned along the r2c axis ([f k] is the sum of
      abs(u)**2 over all other axes) *)
  Definition energy_aligned (N : nat) (f : vec) : K :=
    let n := (N / 2 + 1)%nat in
    if (N mod 2 =? 0)%nat
    then (1 + 1) * sum_from_to 1 (n - 1) f + f 0%nat + f (n - 1)%nat
    else (1 + 1) * sum_from_to 1 n f + f 0%nat.
  (** lines 63-83: this rank holds the coefficients start <= k < stop of dims = N//2+1 *)
  Definition energy_local (N start stop : nat) (f : vec) : K :=
    let g t := f (start + t)%nat in
    let n := (stop - start)%nat in
    if (N mod 2 =? 0)%nat
    then (1 + 1) * sum_from_to 1 (n - 1) g
         + (if (start =? 0)%nat then g 0%nat else (1 + 1) * g 0%nat)
         + (if (stop =? N / 2 + 1)%nat then g (n - 1)%nat else (1 + 1) * g (n - 1)%nat)
    else (1 + 1) * sum_from_to 1 n g + (if (start =? 0)%nat then g 0%nat else (1 + 1) * g 0%nat).
  (** comm.allreduce: the sum over the ranks *)
  Fixpoint energy_ranks (N : nat) (chunks : list (nat * nat)) (f : vec) : K :=
    match chunks with
    | [] => 0
    | (a, b) :: r => energy_local N a b f + energy_ranks N r f
    end.
End Fourier.
