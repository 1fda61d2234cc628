(** Property theorems C17 (HermitianSymmetrize, HermitianSymmetrizeX, HermitianSymmetrizeXY).
    Wave numbers are signed integers; mode2/mode3 (HermSpec.v) say where a mode is stored. *)
From Coq Require Import Reals ZArith Arith Bool Lia.
From Verif Require Import CNum Mem FftwModel FftwSpec HermModel HermSpec HermTop.

(** 1D: mode 0 becomes real, nothing else changes *)
Theorem C17_hermitian_1d : forall f m F, cell_C m f F ->
  always (HermitianSymmetrize f) m (fun m' => exists G, cell_C m' f G /\ G = Cconj G /\ re G = re F /\
    forall x, ~ word_of f x -> m' x = m x).
Proof. exact sym1_thm. Qed.
Print Assumptions C17_hermitian_1d.

(** 2D: from the modes (a,0), a >= 0, under every schedule: the line y=0 becomes Hermitian, the
    given modes are kept (mode 0 keeps its real part), the Nyquist row is zeroed when it exists
    (x0 = Hx), and every other word is untouched *)
Theorem C17_hermitian_2d : forall Hx Hy x0 f Sx m (F : Z -> C),
  0 < Hx -> Hx <= x0 + 1 -> 0 < Hy <= Sx -> space m f (2 * ((x0 + Hx) * Sx)) ->
  (forall a, (0 <= a < Z.of_nat Hx)%Z -> cell_C m (mode2 f x0 Sx a 0) (F a)) ->
  always (HermitianSymmetrizeX Hx Hy x0 f Sx) m (fun m' =>
    (exists G : Z -> C,
       (forall a, inside Hx a -> cell_C m' (mode2 f x0 Sx a 0) (G a)) /\
       (forall a, G (- a)%Z = Cconj (G a)) /\
       (forall a, (0 < a < Z.of_nat Hx)%Z -> G a = F a) /\ re (G 0%Z) = re (F 0%Z)) /\
    (x0 = Hx -> forall j, j < Hy -> cell_C m' (mode2 f x0 Sx (- Z.of_nat Hx) j) C0) /\
    (forall x, (forall a, inside Hx a -> ~ word_of (mode2 f x0 Sx a 0) x) ->
       (x0 = Hx -> forall j, j < Hy -> ~ word_of (mode2 f x0 Sx (- Z.of_nat Hx) j) x) -> m' x = m x)).
Proof. exact symX_thm. Qed.
Print Assumptions C17_hermitian_2d.

(** 3D: likewise on the plane z=0, from the modes (a,b,0) with b > 0 or b = 0, a >= 0 *)
Theorem C17_hermitian_3d : forall Hx Hy Hz x0 y0 f Sx Sy m (F : Z -> Z -> C),
  0 < Hx -> 0 < Hy -> Hx <= x0 + 1 -> Hy <= y0 + 1 -> 0 < Hz <= Sy -> (y0 + Hy) * Sy <= Sx ->
  space m f (2 * ((x0 + Hx) * Sx)) ->
  let at3 := mode3 f x0 y0 Sx Sy in
  (forall a b, inside Hx a -> inside Hy b -> (0 < b \/ (b = 0 /\ 0 <= a))%Z -> cell_C m (at3 a b 0) (F a b)) ->
  always (HermitianSymmetrizeXY Hx Hy Hz x0 y0 f Sx Sy) m (fun m' =>
    (exists G : Z -> Z -> C,
       (forall a b, inside Hx a -> inside Hy b -> cell_C m' (at3 a b 0) (G a b)) /\
       (forall a b, G (- a)%Z (- b)%Z = Cconj (G a b)) /\
       (forall a b, (0 < b)%Z -> G a b = F a b) /\ (forall a, (0 < a)%Z -> G a 0%Z = F a 0%Z) /\
       re (G 0%Z 0%Z) = re (F 0%Z 0%Z)) /\
    (x0 = Hx -> forall b k, (- Z.of_nat y0 <= b < Z.of_nat Hy)%Z -> k < Hz -> cell_C m' (at3 (- Z.of_nat Hx)%Z b k) C0) /\
    (y0 = Hy -> forall a k, (- Z.of_nat x0 <= a < Z.of_nat Hx)%Z -> k < Hz -> cell_C m' (at3 a (- Z.of_nat Hy)%Z k) C0) /\
    (forall x, (forall a b, inside Hx a -> inside Hy b -> ~ word_of (at3 a b 0) x) ->
       (x0 = Hx -> forall b k, (- Z.of_nat y0 <= b < Z.of_nat Hy)%Z -> k < Hz -> ~ word_of (at3 (- Z.of_nat Hx)%Z b k) x) ->
       (y0 = Hy -> forall a k, (- Z.of_nat x0 <= a < Z.of_nat Hx)%Z -> k < Hz -> ~ word_of (at3 a (- Z.of_nat Hy)%Z k) x) ->
       m' x = m x)).
Proof. exact symXY_thm. Qed.
Print Assumptions C17_hermitian_3d.

(** a second call changes nothing *)
Theorem C17_idempotent_2d : forall Hx Hy x0 f Sx m (F : Z -> C),
  0 < Hx -> Hx <= x0 + 1 -> 0 < Hy <= Sx -> space m f (2 * ((x0 + Hx) * Sx)) ->
  (forall a, (0 <= a < Z.of_nat Hx)%Z -> cell_C m (mode2 f x0 Sx a 0) (F a)) ->
  always (HermitianSymmetrizeX Hx Hy x0 f Sx) m (fun m1 =>
    always (HermitianSymmetrizeX Hx Hy x0 f Sx) m1 (fun m2 => forall x, m2 x = m1 x)).
Proof. exact symX_idem_thm. Qed.
Print Assumptions C17_idempotent_2d.
Theorem C17_idempotent_3d : forall Hx Hy Hz x0 y0 f Sx Sy m (F : Z -> Z -> C),
  0 < Hx -> 0 < Hy -> Hx <= x0 + 1 -> Hy <= y0 + 1 -> 0 < Hz <= Sy -> (y0 + Hy) * Sy <= Sx ->
  space m f (2 * ((x0 + Hx) * Sx)) ->
  (forall a b, inside Hx a -> inside Hy b -> (0 < b \/ (b = 0 /\ 0 <= a))%Z -> cell_C m (mode3 f x0 y0 Sx Sy a b 0) (F a b)) ->
  always (HermitianSymmetrizeXY Hx Hy Hz x0 y0 f Sx Sy) m (fun m1 =>
    always (HermitianSymmetrizeXY Hx Hy Hz x0 y0 f Sx Sy) m1 (fun m2 => forall x, m2 x = m1 x)).
Proof. exact symXY_idem_thm. Qed.
Print Assumptions C17_idempotent_3d.

(** a case: compact storage with the Nyquist planes (Hx=2, Hy=3, Hz=2, origin at (2,3)) in a
    memory where every word holds the number 1 *)
Definition ones : dmem := fun _ => Val 1%R.
Example C17_case :
  0 < 2 /\ 0 < 3 /\ 2 <= 2 + 1 /\ 3 <= 3 + 1 /\ 0 < 2 <= 2 /\ (3 + 3) * 2 <= 12 /\
  space ones 10 (2 * ((2 + 2) * 12)) /\
  (forall a b, inside 2 a -> inside 3 b -> (0 < b \/ (b = 0 /\ 0 <= a))%Z ->
     cell_C ones (mode3 10 2 3 12 2 a b 0) (mkC 1 1)) /\
  mode3 10 2 3 12 2 (-1) (-2) 0 = 10 + 2 * (1 * 12 + 1 * 2).
Proof. repeat split; try lia. intros d _. discriminate. Qed.
