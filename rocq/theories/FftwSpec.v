(** Vocabulary for the statements about the fftw++.h classes: arrays of doubles and Complex values
    in memory, and the mathematical discrete Fourier transforms. *)
From Coq Require Import Reals ZArith Arith List Bool.
From Verif Require Import CNum Sums Mem FftwModel.

(** Complex arrays in row-major order; a Complex occupies two doubles *)
Definition carray1 (m : dmem) (p n : nat) (f : nat -> C) : Prop :=
  forall i, i < n -> cell_C m (p + 2 * i) (f i).
Definition carray2 (m : dmem) (p nx ny : nat) (f : nat -> nat -> C) : Prop :=
  forall i j, i < nx -> j < ny -> cell_C m (p + 2 * (i * ny + j)) (f i j).
Definition carray3 (m : dmem) (p nx ny nz : nat) (f : nat -> nat -> nat -> C) : Prop :=
  forall i j k, i < nx -> j < ny -> k < nz -> cell_C m (p + 2 * ((i * ny + j) * nz + k)) (f i j k).
(** real arrays with row pitch (doubles from one row to the next) *)
Definition rarray1 (m : dmem) (p n : nat) (f : nat -> R) : Prop :=
  forall i, i < n -> m (p + i) = Val (f i).
Definition rarray2 (m : dmem) (p nx ny pitch : nat) (f : nat -> nat -> R) : Prop :=
  forall i j, i < nx -> j < ny -> m (p + i * pitch + j) = Val (f i j).
Definition rarray3 (m : dmem) (p nx ny nz pitch : nat) (f : nat -> nat -> nat -> R) : Prop :=
  forall i j k, i < nx -> j < ny -> k < nz -> m (p + (i * ny + j) * pitch + k) = Val (f i j k).

(** documented layout of real data: dense out of place, rows of Complex[n/2+1] in place *)
Definition pitch (n : nat) (inplace : bool) : nat := if inplace then 2 * (n / 2 + 1) else n.

(** e^{2 pi i x} *)
Definition cis (x : R) : C := mkC (cos (2 * PI * x)) (sin (2 * PI * x)).
(** discrete Fourier transforms with phase sign sg *)
Definition DFT1 (nx : nat) (sg : R) (f : nat -> C) (a : nat) : C :=
  Csum nx (fun i => Cmul (f i) (cis (sg * (INR i * INR a / INR nx)))).
Definition DFT2 (nx ny : nat) (sg : R) (f : nat -> nat -> C) (a b : nat) : C :=
  Csum nx (fun i => Csum ny (fun j =>
    Cmul (f i j) (cis (sg * (INR i * INR a / INR nx + INR j * INR b / INR ny))))).
Definition DFT3 (nx ny nz : nat) (sg : R) (f : nat -> nat -> nat -> C) (a b c : nat) : C :=
  Csum nx (fun i => Csum ny (fun j => Csum nz (fun k =>
    Cmul (f i j k)
         (cis (sg * (INR i * INR a / INR nx + INR j * INR b / INR ny + INR k * INR c / INR nz)))))).

(** two blocks of n and n' doubles do not overlap *)
Definition disjoint (p n p' n' : nat) : Prop := p + n <= p' \/ p' + n' <= p.
Definition space (m : dmem) (p n : nat) : Prop := forall d, d < n -> allocated m (p + d).
Definition init (m : dmem) (p n : nat) : Prop := forall d, d < n -> defined m (p + d).
Definition untouched_outside (m m' : dmem) (p n : nat) : Prop := forall a, ~ (p <= a < p + n) -> m' a = m a.

(** every execution (any schedule) ends normally in a state satisfying Q, and there is one *)
Definition always (c : dcmd) (m : dmem) (Q : dmem -> Prop) : Prop :=
  (exists o, exec c m o) /\ forall o, exec c m o -> exists m', o = OK m' /\ Q m'.
(** every execution stops with the error exit, and there is one *)
Definition always_exits (c : dcmd) (m : dmem) : Prop :=
  (exists o, exec c m o) /\ forall o, exec c m o -> o = ExitErr.

Definition negated (c : cell R) : cell R := match c with Val x => Val (- x)%R | c => c end.
Definition times (r : R) (c : cell R) : cell R := match c with Val x => Val (x * r)%R | c => c end.

(** Fourier modes with integer wave numbers *)
Definition MODE2 (nx ny : nat) (sg : R) (f : nat -> nat -> C) (kx ky : Z) : C :=
  Csum nx (fun i => Csum ny (fun j =>
    Cmul (f i j) (cis (sg * (INR i * IZR kx / INR nx + INR j * IZR ky / INR ny))))).
Definition MODE3 (nx ny nz : nat) (sg : R) (f : nat -> nat -> nat -> C) (kx ky kz : Z) : C :=
  Csum nx (fun i => Csum ny (fun j => Csum nz (fun k =>
    Cmul (f i j k)
         (cis (sg * (INR i * IZR kx / INR nx + INR j * IZR ky / INR ny + INR k * IZR kz / INR nz)))))).
(** the wave number stored in row i when the origin is in the centre: -nx/2, ..., nx/2-1 *)
Definition centred (nx i : nat) : Z := Z.of_nat i - Z.of_nat (nx / 2).
(** spectra of real data, indices modulo the sizes *)
Definition hermitian2 (nx ny : nat) (F : nat -> nat -> C) : Prop :=
  forall a b, a < nx -> b < ny -> F ((nx - a) mod nx) ((ny - b) mod ny) = Cconj (F a b).

(** M vectors of n elements of w doubles at p: the doubles of vector k *)
Definition vec_word (p w n stride dist k a : nat) : Prop :=
  exists s c, s < n /\ c < w /\ a = p + w * (stride * s + dist * k) + c.
(** no two elements of the M vectors share storage *)
Definition no_overlap (n M stride dist : nat) : Prop :=
  forall s k s' k', s < n -> k < M -> s' < n -> k' < M ->
    stride * s + dist * k = stride * s' + dist * k' -> s = s' /\ k = k'.

(** only the two arrays at a and b may change *)
Definition only (m m' : dmem) (a na b nb : nat) : Prop :=
  forall x, ~ (a <= x < a + na) -> ~ (b <= x < b + nb) -> m' x = m x.
(** the Nyquist mode of a dimension of size n: wave number n/2 in absolute value *)
Definition nyquist_mode (n : nat) (k : Z) : Prop := (2 * Z.abs k = Z.of_nat n)%Z.
