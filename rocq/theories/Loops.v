(** Derived rules for the loop shapes of convolve.cc: each iteration writes its own
    words (one, two or three destinations), reads only words no iteration writes, or its
    own. *)
From Coq Require Import Reals ZArith Arith Lia List Bool.
From Verif Require Import CNum Sums Roots Mem VecModel PadModel.

Notation mem := (mem C).
Notation cell := (cell C).

Definition rng (lo hi s : nat) : Prop := lo <= s < hi.

Lemma WP_for lo hi body (W : nat -> addr -> Prop) (Q : nat -> mem -> Prop) m (K : mem -> Prop) :
  (forall s s' a, rng lo hi s -> rng lo hi s' -> W s a -> W s' a -> s = s') ->
  (forall s, rng lo hi s -> local (W s) (Q s)) ->
  (forall s, rng lo hi s ->
     wp (fun a => forall s', rng lo hi s' -> ~ W s' a) (W s) (body s) m (Q s)) ->
  (forall m', (forall s, rng lo hi s -> Q s m') ->
     (forall a, (forall s, rng lo hi s -> ~ W s a) -> m' a = m a) ->
     (forall a, m a <> Unalloc -> m' a <> Unalloc) -> K m') ->
  WP (ParFor lo hi body) m K.
Proof.
  intros Hinj Hloc Hleaf Hk. unfold ParFor.
  eapply WP_mono; [|apply (WP_par C (hi - lo)
     (fun i a => forall s', rng lo hi s' -> ~ W s' a) (fun i => W (lo + i))
     (fun i => Q (lo + i)))].
  - intros m' [HQ [HF Hal]]. apply Hk.
    + intros s Hs. specialize (HQ (s - lo)). unfold rng in Hs.
      replace (lo + (s - lo)) with s in HQ by lia. apply HQ. lia.
    + intros a Ha. apply HF. intros (i & Hi & HW). apply (Ha (lo + i)); [unfold rng; lia|assumption].
    + assumption.
  - intros i j a Hi Hj Hne HW [HR|HW'].
    + eapply HR; [|exact HW]. unfold rng; lia.
    + apply Hne. assert (lo + i = lo + j); [|lia].
      eapply Hinj; [| |exact HW|exact HW']; unfold rng; lia.
  - intros i Hi m1 m2 Hm. apply Hloc; [unfold rng; lia|]. intros a Ha. apply Hm. auto.
  - intros i Hi. apply Hleaf. unfold rng; lia.
Qed.

Lemma wp_for lo hi body (W : nat -> addr -> Prop) (Q : nat -> mem -> Prop) (R : addr -> Prop) m :
  (forall s s' a, rng lo hi s -> rng lo hi s' -> W s a -> W s' a -> s = s') ->
  (forall s a, rng lo hi s -> W s a -> ~ R a) ->
  (forall s, rng lo hi s -> local (W s) (Q s)) ->
  (forall s, rng lo hi s -> wp R (W s) (body s) m (Q s)) ->
  wp R (fun a => exists s, rng lo hi s /\ W s a) (pForR lo hi body) m
     (fun m' => forall s, rng lo hi s -> Q s m').
Proof.
  intros Hinj Hdis Hloc Hleaf. unfold pForR.
  eapply wp_mono; [|apply (wp_pfor C (hi - lo) (fun _ => R) (fun i => W (lo + i)) (fun i => Q (lo + i)))].
  - intros m' [HQ _] s Hs. specialize (HQ (s - lo)). unfold rng in Hs.
    replace (lo + (s - lo)) with s in HQ by lia. apply HQ. lia.
  - intros i j a Hi Hj Hne HW [HR|HW'].
    + eapply Hdis; [|exact HW|exact HR]. unfold rng; lia.
    + apply Hne. assert (lo + i = lo + j); [|lia].
      eapply Hinj; [| |exact HW|exact HW']; unfold rng; lia.
  - intros i Hi m1 m2 Hm. apply Hloc; [unfold rng; lia|]. intros a Ha. apply Hm. auto.
  - intros i a Hi HR. auto.
  - intros i a Hi HW. exists (lo + i). split; [unfold rng; lia|assumption].
  - intros i Hi. apply Hleaf. unfold rng; lia.
Qed.

(** two nested loops *)
Lemma WP_for2 lo hi lo2 hi2 body inner (W : nat -> nat -> addr -> Prop)
  (Q : nat -> nat -> mem -> Prop) m (K : mem -> Prop) :
  (forall s, rng lo hi s -> body s = pForR lo2 hi2 (inner s)) ->
  (forall s c s' c' a, rng lo hi s -> rng lo2 hi2 c -> rng lo hi s' -> rng lo2 hi2 c' ->
     W s c a -> W s' c' a -> s = s' /\ c = c') ->
  (forall s c, rng lo hi s -> rng lo2 hi2 c -> local (W s c) (Q s c)) ->
  (forall s c, rng lo hi s -> rng lo2 hi2 c ->
     wp (fun a => forall s' c', rng lo hi s' -> rng lo2 hi2 c' -> ~ W s' c' a) (W s c)
        (inner s c) m (Q s c)) ->
  (forall m', (forall s c, rng lo hi s -> rng lo2 hi2 c -> Q s c m') ->
     (forall a, (forall s c, rng lo hi s -> rng lo2 hi2 c -> ~ W s c a) -> m' a = m a) ->
     (forall a, m a <> Unalloc -> m' a <> Unalloc) -> K m') ->
  WP (ParFor lo hi body) m K.
Proof.
  intros Hb Hinj Hloc Hleaf Hk.
  apply WP_for with (W := fun s a => exists c, rng lo2 hi2 c /\ W s c a)
                    (Q := fun s m' => forall c, rng lo2 hi2 c -> Q s c m').
  - intros s s' a Hs Hs' (c & Hc & HW) (c' & Hc' & HW').
    destruct (Hinj s c s' c' a Hs Hc Hs' Hc' HW HW'). assumption.
  - intros s Hs m1 m2 Hm HQ c Hc. eapply Hloc; [exact Hs|exact Hc| |apply HQ; exact Hc].
    intros a Ha. apply Hm. eauto.
  - intros s Hs. rewrite (Hb s Hs).
    eapply wp_weaken; [| |apply (wp_for lo2 hi2 (inner s) (W s) (Q s)
       (fun a => forall s' c', rng lo hi s' -> rng lo2 hi2 c' -> ~ W s' c' a))].
    + intros a Ha. left. intros s' Hs' (c' & Hc' & HW). eapply Ha; eauto.
    + auto.
    + intros c c' a Hc Hc' HW HW'. destruct (Hinj s c s c' a Hs Hc Hs Hc' HW HW'). assumption.
    + intros c a Hc HW HR. eapply HR; [exact Hs|exact Hc|exact HW].
    + intros c Hc. apply Hloc; assumption.
    + intros c Hc. apply Hleaf; assumption.
  - intros m' HQ HF Hal. apply Hk; [auto| |assumption].
    intros a Ha. apply HF. intros s Hs (c & Hc & HW). eapply Ha; eauto.
Qed.

(** three nested loops *)
Lemma WP_for3 lo hi lo2 hi2 lo3 hi3 body inner inner2 (W : nat -> nat -> nat -> addr -> Prop)
  (Q : nat -> nat -> nat -> mem -> Prop) m (K : mem -> Prop) :
  (forall t, rng lo hi t -> body t = pForR lo2 hi2 (inner t)) ->
  (forall t s, rng lo hi t -> rng lo2 hi2 s -> inner t s = pForR lo3 hi3 (inner2 t s)) ->
  (forall t s c t' s' c' a, rng lo hi t -> rng lo2 hi2 s -> rng lo3 hi3 c ->
     rng lo hi t' -> rng lo2 hi2 s' -> rng lo3 hi3 c' ->
     W t s c a -> W t' s' c' a -> t = t' /\ s = s' /\ c = c') ->
  (forall t s c, rng lo hi t -> rng lo2 hi2 s -> rng lo3 hi3 c -> local (W t s c) (Q t s c)) ->
  (forall t s c, rng lo hi t -> rng lo2 hi2 s -> rng lo3 hi3 c ->
     wp (fun a => forall t' s' c', rng lo hi t' -> rng lo2 hi2 s' -> rng lo3 hi3 c' ->
                  ~ W t' s' c' a) (W t s c)
        (inner2 t s c) m (Q t s c)) ->
  (forall m', (forall t s c, rng lo hi t -> rng lo2 hi2 s -> rng lo3 hi3 c -> Q t s c m') ->
     (forall a, (forall t s c, rng lo hi t -> rng lo2 hi2 s -> rng lo3 hi3 c -> ~ W t s c a) ->
        m' a = m a) ->
     (forall a, m a <> Unalloc -> m' a <> Unalloc) -> K m') ->
  WP (ParFor lo hi body) m K.
Proof.
  intros Hb Hb2 Hinj Hloc Hleaf Hk.
  apply WP_for with
    (W := fun t a => exists s, rng lo2 hi2 s /\ exists c, rng lo3 hi3 c /\ W t s c a)
    (Q := fun t m' => forall s, rng lo2 hi2 s -> forall c, rng lo3 hi3 c -> Q t s c m').
  - intros t t' a Ht Ht' (s & Hs & c & Hc & HW) (s' & Hs' & c' & Hc' & HW').
    destruct (Hinj t s c t' s' c' a) as (? & ? & ?); assumption.
  - intros t Ht m1 m2 Hm HQ s Hs c Hc. eapply Hloc; [| | | |apply HQ]; try eassumption.
    intros a Ha. apply Hm. eauto.
  - intros t Ht. rewrite (Hb t Ht).
    set (RR := fun a => forall t' s' c', rng lo hi t' -> rng lo2 hi2 s' -> rng lo3 hi3 c' ->
                  ~ W t' s' c' a).
    eapply wp_weaken; [| |apply (wp_for lo2 hi2 (inner t)
       (fun s a => exists c, rng lo3 hi3 c /\ W t s c a)
       (fun s m' => forall c, rng lo3 hi3 c -> Q t s c m') RR)].
    + intros a Ha. left. intros t' Ht' (s' & Hs' & c' & Hc' & HW). eapply Ha; [| | |exact HW]; assumption.
    + auto.
    + intros s s' a Hs Hs' (c & Hc & HW) (c' & Hc' & HW').
      destruct (Hinj t s c t s' c' a) as (? & ? & ?); assumption.
    + intros s a Hs (c & Hc & HW) HR. eapply HR; [| | |exact HW]; assumption.
    + intros s Hs m1 m2 Hm HQ c Hc. eapply Hloc; [| | | |apply HQ]; try eassumption.
      intros a Ha. apply Hm. eauto.
    + intros s Hs. rewrite Hb2 by assumption.
      apply wp_for.
      * intros c c' a Hc Hc' HW HW'. destruct (Hinj t s c t s c' a) as (? & ? & ?); assumption.
      * intros c a Hc HW HR. eapply HR; [| | |exact HW]; assumption.
      * intros c Hc. apply Hloc; assumption.
      * intros c Hc. apply Hleaf; assumption.
  - intros m' HQ HF Hal. apply Hk; [auto| |assumption].
    intros a Ha. apply HF. intros t Ht (s & Hs & c & Hc & HW). eapply Ha; [| | |exact HW]; assumption.
Qed.

(** *** one destination *)
Lemma local_one (d : addr) (v : C) : local (eq d) (fun m : mem => m d = Val v).
Proof. intros m m' H E. rewrite <- H; auto. Qed.

Lemma WP_map1 lo hi body (dst : nat -> addr) (g : nat -> C) m (K : mem -> Prop) :
  (forall s s', rng lo hi s -> rng lo hi s' -> dst s = dst s' -> s = s') ->
  (forall s, rng lo hi s ->
     wp (fun a => forall s', rng lo hi s' -> dst s' <> a) (eq (dst s)) (body s) m
        (fun m' => m' (dst s) = Val (g s))) ->
  (forall m', (forall s, rng lo hi s -> m' (dst s) = Val (g s)) ->
     (forall a, (forall s, rng lo hi s -> dst s <> a) -> m' a = m a) ->
     (forall a, m a <> Unalloc -> m' a <> Unalloc) -> K m') ->
  WP (ParFor lo hi body) m K.
Proof.
  intros Hinj Hleaf Hk.
  apply WP_for with (W := fun s a => dst s = a) (Q := fun s m' => m' (dst s) = Val (g s)).
  - intros s s' a Hs Hs' E E'. apply Hinj; congruence.
  - intros s Hs. apply local_one.
  - assumption.
  - assumption.
Qed.

Lemma WP_map2 lo hi lo2 hi2 body inner (dst : nat -> nat -> addr) (g : nat -> nat -> C) m (K : mem -> Prop) :
  (forall s, rng lo hi s -> body s = pForR lo2 hi2 (inner s)) ->
  (forall s c s' c', rng lo hi s -> rng lo2 hi2 c -> rng lo hi s' -> rng lo2 hi2 c' ->
     dst s c = dst s' c' -> s = s' /\ c = c') ->
  (forall s c, rng lo hi s -> rng lo2 hi2 c ->
     wp (fun a => forall s' c', rng lo hi s' -> rng lo2 hi2 c' -> dst s' c' <> a) (eq (dst s c))
        (inner s c) m (fun m' => m' (dst s c) = Val (g s c))) ->
  (forall m', (forall s c, rng lo hi s -> rng lo2 hi2 c -> m' (dst s c) = Val (g s c)) ->
     (forall a, (forall s c, rng lo hi s -> rng lo2 hi2 c -> dst s c <> a) -> m' a = m a) ->
     (forall a, m a <> Unalloc -> m' a <> Unalloc) -> K m') ->
  WP (ParFor lo hi body) m K.
Proof.
  intros Hb Hinj Hleaf Hk.
  apply WP_for2 with (inner := inner) (lo2 := lo2) (hi2 := hi2)
    (W := fun s c a => dst s c = a) (Q := fun s c m' => m' (dst s c) = Val (g s c)).
  - assumption.
  - intros s c s' c' a Hs Hc Hs' Hc' E E'. apply Hinj; congruence.
  - intros s c Hs Hc. apply local_one.
  - assumption.
  - assumption.
Qed.

Lemma WP_map3 lo hi lo2 hi2 lo3 hi3 body inner inner2 (dst : nat -> nat -> nat -> addr)
  (g : nat -> nat -> nat -> C) m (K : mem -> Prop) :
  (forall t, rng lo hi t -> body t = pForR lo2 hi2 (inner t)) ->
  (forall t s, rng lo hi t -> rng lo2 hi2 s -> inner t s = pForR lo3 hi3 (inner2 t s)) ->
  (forall t s c t' s' c', rng lo hi t -> rng lo2 hi2 s -> rng lo3 hi3 c ->
     rng lo hi t' -> rng lo2 hi2 s' -> rng lo3 hi3 c' ->
     dst t s c = dst t' s' c' -> t = t' /\ s = s' /\ c = c') ->
  (forall t s c, rng lo hi t -> rng lo2 hi2 s -> rng lo3 hi3 c ->
     wp (fun a => forall t' s' c', rng lo hi t' -> rng lo2 hi2 s' -> rng lo3 hi3 c' ->
           dst t' s' c' <> a) (eq (dst t s c))
        (inner2 t s c) m (fun m' => m' (dst t s c) = Val (g t s c))) ->
  (forall m', (forall t s c, rng lo hi t -> rng lo2 hi2 s -> rng lo3 hi3 c ->
       m' (dst t s c) = Val (g t s c)) ->
     (forall a, (forall t s c, rng lo hi t -> rng lo2 hi2 s -> rng lo3 hi3 c -> dst t s c <> a) ->
        m' a = m a) ->
     (forall a, m a <> Unalloc -> m' a <> Unalloc) -> K m') ->
  WP (ParFor lo hi body) m K.
Proof.
  intros Hb Hb2 Hinj Hleaf Hk.
  apply WP_for3 with (inner := inner) (inner2 := inner2) (lo2 := lo2) (hi2 := hi2)
    (lo3 := lo3) (hi3 := hi3)
    (W := fun t s c a => dst t s c = a) (Q := fun t s c m' => m' (dst t s c) = Val (g t s c)).
  - assumption.
  - assumption.
  - intros t s c t' s' c' a ? ? ? ? ? ? E E'. apply Hinj; congruence.
  - intros. apply local_one.
  - assumption.
  - assumption.
Qed.

(** *** two and three destinations *)
Lemma WP_map1x2 lo hi body (d1 d2 : nat -> addr) (g1 g2 : nat -> C) m (K : mem -> Prop) :
  (forall s s', rng lo hi s -> rng lo hi s' ->
     (d1 s = d1 s' -> s = s') /\ (d2 s = d2 s' -> s = s') /\ d1 s <> d2 s') ->
  (forall s, rng lo hi s ->
     wp (fun a => forall s', rng lo hi s' -> d1 s' <> a /\ d2 s' <> a)
        (fun a => d1 s = a \/ d2 s = a) (body s) m
        (fun m' => m' (d1 s) = Val (g1 s) /\ m' (d2 s) = Val (g2 s))) ->
  (forall m', (forall s, rng lo hi s -> m' (d1 s) = Val (g1 s)) ->
     (forall s, rng lo hi s -> m' (d2 s) = Val (g2 s)) ->
     (forall a, (forall s, rng lo hi s -> d1 s <> a /\ d2 s <> a) -> m' a = m a) ->
     (forall a, m a <> Unalloc -> m' a <> Unalloc) -> K m') ->
  WP (ParFor lo hi body) m K.
Proof.
  intros Hinj Hleaf Hk.
  apply WP_for with (W := fun s a => d1 s = a \/ d2 s = a)
    (Q := fun s m' => m' (d1 s) = Val (g1 s) /\ m' (d2 s) = Val (g2 s)).
  - intros s s' a Hs Hs' E E'.
    destruct (Hinj s s' Hs Hs') as (A & B & D). destruct (Hinj s' s Hs' Hs) as (_ & _ & D').
    destruct E as [E|E], E' as [E'|E'].
    + apply A; congruence.
    + exfalso; apply D; congruence.
    + exfalso; apply D'; congruence.
    + apply B; congruence.
  - intros s Hs m1 m2 H [E1 E2]. rewrite <- !H; auto.
  - intros s Hs. eapply wp_weaken; [| |apply Hleaf; assumption].
    + intros a Ha. left. intros s' Hs' E. destruct (Ha s' Hs'). tauto.
    + auto.
  - intros m' HQ HF Hal. apply Hk; [intros; apply HQ; auto|intros; apply HQ; auto| |assumption].
    intros a Ha. apply HF. intros s Hs E. destruct (Ha s Hs). tauto.
Qed.

Lemma WP_map1x3 lo hi body (d1 d2 d3 : nat -> addr) (g1 g2 g3 : nat -> C) m (K : mem -> Prop) :
  (forall s s', rng lo hi s -> rng lo hi s' ->
     (d1 s = d1 s' -> s = s') /\ (d2 s = d2 s' -> s = s') /\ (d3 s = d3 s' -> s = s') /\
     d1 s <> d2 s' /\ d1 s <> d3 s' /\ d2 s <> d3 s') ->
  (forall s, rng lo hi s ->
     wp (fun a => forall s', rng lo hi s' -> d1 s' <> a /\ d2 s' <> a /\ d3 s' <> a)
        (fun a => d1 s = a \/ d2 s = a \/ d3 s = a) (body s) m
        (fun m' => m' (d1 s) = Val (g1 s) /\ m' (d2 s) = Val (g2 s) /\ m' (d3 s) = Val (g3 s))) ->
  (forall m', (forall s, rng lo hi s -> m' (d1 s) = Val (g1 s)) ->
     (forall s, rng lo hi s -> m' (d2 s) = Val (g2 s)) ->
     (forall s, rng lo hi s -> m' (d3 s) = Val (g3 s)) ->
     (forall a, (forall s, rng lo hi s -> d1 s <> a /\ d2 s <> a /\ d3 s <> a) -> m' a = m a) ->
     (forall a, m a <> Unalloc -> m' a <> Unalloc) -> K m') ->
  WP (ParFor lo hi body) m K.
Proof.
  intros Hinj Hleaf Hk.
  apply WP_for with (W := fun s a => d1 s = a \/ d2 s = a \/ d3 s = a)
    (Q := fun s m' => m' (d1 s) = Val (g1 s) /\ m' (d2 s) = Val (g2 s) /\ m' (d3 s) = Val (g3 s)).
  - intros s s' a Hs Hs' E E'.
    destruct (Hinj s s' Hs Hs') as (A & B & D & X & Y & Z).
    destruct (Hinj s' s Hs' Hs) as (_ & _ & _ & X' & Y' & Z').
    destruct E as [E|[E|E]], E' as [E'|[E'|E']]; subst a; auto; try (exfalso; congruence).
  - intros s Hs m1 m2 H (E1 & E2 & E3). rewrite <- !H; auto.
  - intros s Hs. eapply wp_weaken; [| |apply Hleaf; assumption].
    + intros a Ha. left. intros s' Hs' E. destruct (Ha s' Hs'). tauto.
    + auto.
  - intros m' HQ HF Hal. apply Hk; try (intros; apply HQ; auto; fail).
    + intros a Ha. apply HF. intros s Hs E. destruct (Ha s Hs). tauto.
    + assumption.
Qed.

Lemma WP_map2x3 lo hi lo2 hi2 body inner (d1 d2 d3 : nat -> nat -> addr)
  (g1 g2 g3 : nat -> nat -> C) m (K : mem -> Prop) :
  (forall s, rng lo hi s -> body s = pForR lo2 hi2 (inner s)) ->
  (forall s c s' c', rng lo hi s -> rng lo2 hi2 c -> rng lo hi s' -> rng lo2 hi2 c' ->
     (d1 s c = d1 s' c' -> s = s' /\ c = c') /\ (d2 s c = d2 s' c' -> s = s' /\ c = c') /\
     (d3 s c = d3 s' c' -> s = s' /\ c = c') /\
     d1 s c <> d2 s' c' /\ d1 s c <> d3 s' c' /\ d2 s c <> d3 s' c') ->
  (forall s c, rng lo hi s -> rng lo2 hi2 c ->
     wp (fun a => forall s' c', rng lo hi s' -> rng lo2 hi2 c' ->
            d1 s' c' <> a /\ d2 s' c' <> a /\ d3 s' c' <> a)
        (fun a => d1 s c = a \/ d2 s c = a \/ d3 s c = a) (inner s c) m
        (fun m' => m' (d1 s c) = Val (g1 s c) /\ m' (d2 s c) = Val (g2 s c) /\
                   m' (d3 s c) = Val (g3 s c))) ->
  (forall m', (forall s c, rng lo hi s -> rng lo2 hi2 c -> m' (d1 s c) = Val (g1 s c)) ->
     (forall s c, rng lo hi s -> rng lo2 hi2 c -> m' (d2 s c) = Val (g2 s c)) ->
     (forall s c, rng lo hi s -> rng lo2 hi2 c -> m' (d3 s c) = Val (g3 s c)) ->
     (forall a, (forall s c, rng lo hi s -> rng lo2 hi2 c ->
         d1 s c <> a /\ d2 s c <> a /\ d3 s c <> a) -> m' a = m a) ->
     (forall a, m a <> Unalloc -> m' a <> Unalloc) -> K m') ->
  WP (ParFor lo hi body) m K.
Proof.
  intros Hb Hinj Hleaf Hk.
  apply WP_for2 with (lo2 := lo2) (hi2 := hi2) (inner := inner)
    (W := fun s c a => d1 s c = a \/ d2 s c = a \/ d3 s c = a)
    (Q := fun s c m' => m' (d1 s c) = Val (g1 s c) /\ m' (d2 s c) = Val (g2 s c) /\
                        m' (d3 s c) = Val (g3 s c)).
  - assumption.
  - intros s c s' c' a Hs Hc Hs' Hc' E E'.
    destruct (Hinj s c s' c' Hs Hc Hs' Hc') as (A & B & D & X & Y & Z).
    destruct (Hinj s' c' s c Hs' Hc' Hs Hc) as (_ & _ & _ & X' & Y' & Z').
    destruct E as [E|[E|E]], E' as [E'|[E'|E']]; subst a; auto; try (exfalso; congruence).
  - intros s c Hs Hc m1 m2 H (E1 & E2 & E3). rewrite <- !H; auto.
  - intros s c Hs Hc. eapply wp_weaken; [| |apply Hleaf; assumption].
    + intros a Ha. left. intros s' c' Hs' Hc' E. destruct (Ha s' c' Hs' Hc'). tauto.
    + auto.
  - intros m' HQ HF Hal. apply Hk; try (intros; apply HQ; auto; fail).
    + intros a Ha. apply HF. intros s c Hs Hc E. destruct (Ha s c Hs Hc). tauto.
    + assumption.
Qed.

(** straight-line code *)
Lemma WP_Do p (W : addr -> Prop) (Q : mem -> Prop) m (K : mem -> Prop) :
  local W Q ->
  wp (fun a => ~ W a) W p m Q ->
  (forall m', Q m' -> (forall a, ~ W a -> m' a = m a) ->
     (forall a, m a <> Unalloc -> m' a <> Unalloc) -> K m') ->
  WP (Do p) m K.
Proof.
  intros Hloc Hw Hk.
  assert (E : Do p = ParFor 0 1 (fun _ => p)) by reflexivity. rewrite E.
  apply WP_for with (W := fun _ => W) (Q := fun _ => Q).
  - unfold rng; intros; lia.
  - intros; assumption.
  - intros s Hs. eapply wp_weaken; [| |exact Hw]; [|auto].
    intros a Ha. left. intros; assumption.
  - intros m' HQ HF Hal. apply Hk; [apply (HQ 0); unfold rng; lia| |assumption].
    intros a Ha. apply HF. auto.
Qed.

(** reading a table *)
Lemma tget_some T i v k : T i = Some v -> tget T i k = k v.
Proof. intros H. unfold tget. rewrite H. reflexivity. Qed.

