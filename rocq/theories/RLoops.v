(** Derived rules for the loop shapes of convolve.cc: each iteration writes its own
    words (one, two or three destinations), reads only words no iteration writes, or its
    own. *)
From Coq Require Import Reals ZArith Arith Lia List Bool.
From Verif Require Import CNum Sums Roots Mem VecModel PadModel RealModel.

Notation mem := (Mem.mem R).
Notation cell := (Mem.cell R).

Definition rng (lo hi s : nat) : Prop := lo <= s < hi.

Lemma WP_for lo hi body (W : nat -> addr -> Prop) (Q : nat -> mem -> Prop) m (K : mem -> Prop) :
  (forall s s' a, rng lo hi s -> rng lo hi s' -> W s a -> W s' a -> s = s') ->
  (forall s, rng lo hi s -> local (W s) (Q s)) ->
  (forall s, rng lo hi s ->
     wp (fun a => forall s', rng lo hi s' -> ~ W s' a) (W s) (body s) m (Q s)) ->
  (forall m', (forall s, rng lo hi s -> Q s m') ->
     (forall a, (forall s, rng lo hi s -> ~ W s a) -> m' a = m a) ->
     (forall a, m a <> Unalloc -> m' a <> Unalloc) -> K m') ->
  WP (rFor lo hi body) m K.
Proof.
  intros Hinj Hloc Hleaf Hk. unfold rFor.
  eapply WP_mono; [|apply (WP_par R (hi - lo)
     (fun i a => forall s', rng lo hi s' -> ~ W s' a) (fun i => W (lo + i))
     (fun i => Q (lo + i)))].
  - intros m' [HQ [HF Hal]]. apply Hk.
    + intros s Hs. specialize (HQ (s - lo)). unfold rng in Hs.
      replace (lo + (s - lo)) with s in HQ by lia. apply HQ. lia.
    + intros a Ha. apply HF. intros (i & Hi & HW). apply (Ha (lo + i)); [unfold rng; lia|assumption].
    + assumption.
  - intros i j a Hi Hj Hne HW [HR|HW'].
    + eapply HR; [|exact HW]. unfold rng; lia.
    + apply Hne. assert (lo + i = lo + j); [|lia].
      eapply Hinj; [| |exact HW|exact HW']; unfold rng; lia.
  - intros i Hi m1 m2 Hm. apply Hloc; [unfold rng; lia|]. intros a Ha. apply Hm. auto.
  - intros i Hi. apply Hleaf. unfold rng; lia.
Qed.

(** *** one destination *)
Lemma local_one (d : addr) (v : R) : local (eq d) (fun m : mem => m d = Val v).
Proof. intros m m' H E. rewrite <- H; auto. Qed.

Lemma WP_map1 lo hi body (dst : nat -> addr) (g : nat -> R) m (K : mem -> Prop) :
  (forall s s', rng lo hi s -> rng lo hi s' -> dst s = dst s' -> s = s') ->
  (forall s, rng lo hi s ->
     wp (fun a => forall s', rng lo hi s' -> dst s' <> a) (eq (dst s)) (body s) m
        (fun m' => m' (dst s) = Val (g s))) ->
  (forall m', (forall s, rng lo hi s -> m' (dst s) = Val (g s)) ->
     (forall a, (forall s, rng lo hi s -> dst s <> a) -> m' a = m a) ->
     (forall a, m a <> Unalloc -> m' a <> Unalloc) -> K m') ->
  WP (rFor lo hi body) m K.
Proof.
  intros Hinj Hleaf Hk.
  apply WP_for with (W := fun s a => dst s = a) (Q := fun s m' => m' (dst s) = Val (g s)).
  - intros s s' a Hs Hs' E E'. apply Hinj; congruence.
  - intros s Hs. apply local_one.
  - assumption.
  - assumption.
Qed.

(** straight-line code *)
Lemma WP_Do p (W : addr -> Prop) (Q : mem -> Prop) m (K : mem -> Prop) :
  local W Q ->
  wp (fun a => ~ W a) W p m Q ->
  (forall m', Q m' -> (forall a, ~ W a -> m' a = m a) ->
     (forall a, m a <> Unalloc -> m' a <> Unalloc) -> K m') ->
  WP (rDo p) m K.
Proof.
  intros Hloc Hw Hk.
  assert (E : rDo p = rFor 0 1 (fun _ => p)) by reflexivity. rewrite E.
  apply WP_for with (W := fun _ => W) (Q := fun _ => Q).
  - unfold rng; intros; lia.
  - intros; assumption.
  - intros s Hs. eapply wp_weaken; [| |exact Hw]; [|auto].
    intros a Ha. left. intros; assumption.
  - intros m' HQ HF Hal. apply Hk; [apply (HQ 0); unfold rng; lia| |assumption].
    intros a Ha. apply HF. auto.
Qed.

(** reading a table *)
Lemma rtget_some T i v k : T i = Some v -> rtget T i k = k v.
Proof. intros H. unfold rtget. rewrite H. reflexivity. Qed.

