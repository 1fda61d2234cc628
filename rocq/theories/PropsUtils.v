(** Property theorems C01, C02: size helpers. *)
From Coq Require Import NArith.
From Verif Require Import UtilsModel UtilsSpec UtilsProofs.
Local Open Scope N_scope.

(** C01: for every 1 <= m <= 2^61 the search loops terminate (within 64 iterations each)
    and nextfftsize returns the least number of the form 2^a 3^b 5^c 7^d that is >= m. *)
Theorem C01_nextfftsize_least : forall m, 1 <= m -> m <= 2 ^ 61 ->
  forall fuel, (64 <= fuel)%nat ->
  exists r, nextfftsize fuel m = Some r /\ least_ge smooth7 m r.
Proof. exact nextfftsize_least. Qed.
Print Assumptions C01_nextfftsize_least.

Example C01_case : nextfftsize 64 121 = Some 125 /\ nextfftsize 64 97 = Some 98.
Proof. split; vm_compute; reflexivity. Qed.

(** C02: ceilpow2 on the whole representable range 1..2^63. *)
Theorem C02_ceilpow2_least : forall n, 1 <= n -> n <= 2 ^ 63 ->
  least_ge (power_of 2) n (ceilpow2 n).
Proof. exact ceilpow2_least. Qed.
Print Assumptions C02_ceilpow2_least.

Example C02_ceilpow2_case : ceilpow2 1025 = 2048. Proof. vm_compute; reflexivity. Qed.

(** C02 (limits): above 2^63 and at 0 the function returns 0, which is not a power of 2. *)
Theorem C02_ceilpow2_out_of_range_refuted : forall n, n = 0 \/ 2 ^ 63 < n -> n < W64 ->
  ceilpow2 n = 0 /\ ~ power_of 2 0.
Proof.
  exact (fun n H HW => conj
    (match H with
     | or_introl E => eq_ind_r (fun n => ceilpow2 n = 0) ceilpow2_zero E
     | or_intror G => ceilpow2_overflow n G HW end)
    (fun '(ex_intro _ k E) => N.pow_nonzero 2 k (fun H => ltac:(discriminate H)) (eq_sym E))).
Qed.
Print Assumptions C02_ceilpow2_out_of_range_refuted.

Theorem C02_ceilpow_least : forall fuel p n,
  (150 <= fuel)%nat -> 2 <= p -> p < W64 -> 1 <= n -> n <= 2 ^ 32 ->
  exists r, ceilpow fuel p n = Some r /\ least_ge (power_of p) n r.
Proof. exact ceilpow_least. Qed.
Print Assumptions C02_ceilpow_least.

Example C02_ceilpow_case : ceilpow 150 7 350 = Some 2401. Proof. vm_compute; reflexivity. Qed.

(** C02 (limits): for the representable power 3^39 the code returns a wrong number, ... *)
Theorem C02_ceilpow_overflow_refuted : exists n r,
  n < W64 /\ power_of 3 n /\ ceilpow 300 3 n = Some r /\ ~ power_of 3 r.
Proof. exact (ex_intro _ (3 ^ 39) (ex_intro _ 5756027422282277481
   (conj (proj2 (proj2 ceilpow_wrong)) (conj (ex_intro _ 39 eq_refl)
     (conj (proj1 ceilpow_wrong) (proj1 (proj2 ceilpow_wrong))))))). Qed.
Print Assumptions C02_ceilpow_overflow_refuted.

(** ... and for 2^64-1 its search loop never terminates (whatever the fuel). *)
Theorem C02_ceilpow_diverges_refuted : forall fuel, ceilpow fuel 3 (2 ^ 64 - 1) = None.
Proof. exact ceilpow_diverges. Qed.
Print Assumptions C02_ceilpow_diverges_refuted.

Theorem C02_nextpuresize_least : forall fuel m,
  (150 <= fuel)%nat -> 1 <= m -> m <= 2 ^ 32 ->
  exists r, nextpuresize fuel m = Some r /\ least_ge pure m r.
Proof. exact nextpuresize_least. Qed.
Print Assumptions C02_nextpuresize_least.

Example C02_nextpuresize_case : nextpuresize 150 82 = Some 125. Proof. vm_compute; reflexivity. Qed.

Theorem C02_ispow2_iff : forall m, 1 <= m -> m < W64 -> (ispow2 m = true <-> power_of 2 m).
Proof. exact ispow2_spec. Qed.
Print Assumptions C02_ispow2_iff.

Theorem C02_ispure_iff : forall fuel m,
  (150 <= fuel)%nat -> 1 <= m -> m <= 2 ^ 32 ->
  exists b, ispure fuel m = Some b /\ (b = true <-> pure m).
Proof. exact ispure_spec. Qed.
Print Assumptions C02_ispure_iff.

Example C02_ispure_case : ispure 150 343 = Some true /\ ispure 150 6 = Some false.
Proof. split; vm_compute; reflexivity. Qed.

(** C02 (limits): ispure rejects the pure size 3^39. *)
Theorem C02_ispure_overflow_refuted : exists m, m < W64 /\ pure m /\ ispure 300 m = Some false.
Proof. exact (ex_intro _ (3 ^ 39) (conj (proj2 (proj2 ceilpow_wrong))
         (conj (proj2 ispure_wrong) (proj1 ispure_wrong)))). Qed.
Print Assumptions C02_ispure_overflow_refuted.

Theorem C02_ceilquotient : forall a b, 1 <= b -> a + b <= W64 -> is_ceil a b (ceilquotient a b).
Proof. exact ceilquotient_spec. Qed.
Print Assumptions C02_ceilquotient.

(** the padded buffer sizes for m complex values (2m-1), Hermitian (3m-2) and ternary (4m-3) data *)
Theorem C02_paddings : forall m, 1 <= m -> m <= 2 ^ 61 ->
  least_ge (power_of 2) (2 * m - 1) (cpadding m) /\
  least_ge (power_of 2) (3 * m - 2) (hpadding m) /\
  least_ge (power_of 2) (4 * m - 3) (tpadding m).
Proof. exact paddings_least. Qed.
Print Assumptions C02_paddings.

Example C02_paddings_case : cpadding 9 = 32 /\ hpadding 6 = 16 /\ hpadding 7 = 32 /\ tpadding 5 = 32.
Proof. repeat split; vm_compute; reflexivity. Qed.
