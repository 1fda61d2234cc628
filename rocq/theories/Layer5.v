(** convolveRaw of Convolution2/Convolution3: all branches. *)
From Coq Require Import Reals ZArith Arith Lia List Bool Permutation FunctionalExtensionality.
From Verif Require Import CNum Sums Roots Mem VecModel PadModel PadKernels Loops PadLemmas PadGeom PadIndex Fwd1 FwdAll
  ConvModel Conv1 Conv6 PadSpec PadRound PadBridge PadProofs Team LayerModel Layer1 Layer2 Layer3 Layer4 ConvSpec Xf XfProofs XfBridge.
Import ListNotations.

Lemma TWP_for n (f : nat -> tc C) (I : nat -> mem -> Prop) (m0 : mem) : I 0 m0 ->
  (forall k mm, k < n -> I k mm -> TWP (f k) mm (I (S k))) -> TWP (tfor n f) m0 (I n).
Proof.
  intros H0. induction n as [|n IH]; intros Hs; cbn [tfor]; [apply TWP_skip; assumption|].
  apply TWP_seq. eapply TWP_mono; [|apply IH; intros; apply Hs; auto]. intros mm Hm. apply Hs; auto.
Qed.
Lemma Clist_snoc l r f : Clist (l ++ [r]) f = Cadd (Clist l f) (f r).
Proof. induction l as [|a l IH]; cbn [app Clist fold_right]; [ring|]. unfold Clist in IH. rewrite IH. ring. Qed.

(** the V array is used *)
Definition useV (t : xf) : Prop := 1 < nloops t /\ loop2 t = false /\ goverwrite t = false.

Section Raw.
Variable ly : layer.
Notation t := (lpad ly).
Notation L := (gL t). Notation S := (gS t). Notation CC := (gC t). Notation l := (gl t). Notation M := (gM t).
Notation J := (lJ ly). Notation Sy := (lSy ly). Notation W := (lW ly).
Notation A := (aA t). Notation B := (aB t). Notation T := (lT ly).
Variable rl : nat.
Variables (P : nat -> addr -> bool) (rdy : nat -> mem -> Prop).
Variable Z : nat -> nat -> (nat -> nat -> C) -> nat -> C.
Variable ok_index : nat -> Prop.
Variable okx : (nat -> nat -> C) -> Prop.
Notation col := (col t J Sy). Notation rw := (rw t J Sy). Notation hasr := (hasr t J Sy). Notation allocr := (allocr t J Sy).
Notation Ww := (Ww t). Notation Wal := (Wal t). Notation Wst := (Wst t). Notation Wfree := (Wfree t).
Variables (G v : nat -> addr).
Notation n := (if goverwrite t then gn t else 0).

(** the object: its arrays, schedules and rows *)
Record lobj : Prop := mklobj {
  o_geo : geo t J Sy rl;
  o_cgeo : cgeo ly;
  o_BA : B <= A;
  o_l2 : loop2 t = true -> A = B + 1;
  o_F : forall a, a < A -> lF ly a = Some (G a);
  o_Fp : loop2 t = true -> forall a, a < A -> lFp ly a = Some (G (if a =? 0 then A - 1 else a - 1));
  o_W0 : loop2 t = true -> lW0 ly = W;
  o_V : useV t -> forall b, b < B -> lV ly b = Some (v b);
  o_FF : forall a b, a < A -> b < A -> a <> b -> dj (G a) (S * l) (G b) (S * l);
  o_FW : forall a, a < A -> Wfree W (G a) (S * l);
  o_VV : useV t -> forall a b, a < B -> b < B -> a <> b -> dj (v a) (S * L) (v b) (S * L);
  o_VF : useV t -> forall a b, a < B -> b < A -> dj (v a) (S * L) (G b) (S * l);
  o_VW : useV t -> forall a, a < B -> Wfree W (v a) (S * L);
  o_PF : forall th a ad, th < T -> a < A -> P th ad = true -> ad < G a \/ G a + S * l <= ad;
  o_PV : useV t -> forall th b ad, th < T -> b < B -> P th ad = true -> ad < v b \/ v b + S * L <= ad;
  o_PW : forall th ad, th < T -> P th ad = true -> ~ Ww W ad;
  o_PP : forall th th' a, th < T -> th' < T -> th <> th' -> P th a = true -> P th' a = false;
  o_loc : forall th m m', (forall a, P th a = true -> m a = m' a) -> rdy th m -> rdy th m';
  o_row : row_ok ly rl P rdy Z ok_index okx;
  o_good : forall th k F off, tgood (lrow ly th k F off);
  o_idx : forall r i, In r (residues t) -> i < l -> ok_index (index t r i);
  o_sch : forall r, In r (residues t) \/ (goverwrite t = true /\ r <= gn t - 1) -> schedule T l (lsch ly r);
  (* overwrite mode: the index passed for residue r stands for the same row operation as the
     frequency the row holds *)
  o_ow : goverwrite t = true -> forall r i b y o, r <= gn t - 1 -> i < l -> b < B -> col o ->
    Z (index t r i) b y o = Z (ofr t r i) b y o;
  o_owi : goverwrite t = true -> forall r i, r <= gn t - 1 -> i < l -> ok_index (index t r i)
}.

(** the arrays passed *)
Record larg (f : parr) (fa : nat -> addr) (off : nat) : Prop := mklarg {
  a_f : forall a, a < A -> f a = Some (fa a);
  a_ff : forall a b, a < A -> b < A -> a <> b -> dj (fa a + off) (S * L) (fa b + off) (S * L);
  a_fF : forall a b, a < A -> b < A -> dj (fa a + off) (S * L) (G b) (S * l);
  a_fW : forall a, a < A -> Wfree W (fa a + off) (S * L);
  a_fV : useV t -> forall a b, a < A -> b < B -> dj (v b) (S * L) (fa a + off) (S * L);
  a_Pf : forall th a ad, th < T -> a < A -> P th ad = true -> ad < fa a + off \/ fa a + off + S * L <= ad
}.

(** what holds between calls *)
Record lst (m : mem) : Prop := mklst {
  s_F : forall a, a < A -> allocr (G a) l m;
  s_V : useV t -> forall b, b < B -> allocr (v b) L m;
  s_W : Wst W m;
  s_r : forall th, th < T -> rdy th m
}.
Definition touched (fa : nat -> addr) (off : nat) (ad : addr) : Prop :=
  (exists a, a < A /\ rw (fa a + off) L ad) \/ (exists a, a < A /\ rw (G a) l ad) \/
  (useV t /\ exists b, b < B /\ rw (v b) L ad) \/ Ww W ad \/ (exists th, th < T /\ P th ad = true).

Hypothesis HO : lobj.
Notation HG := (o_geo HO).
Notation rwd := (rw_dj t J Sy rl HG).
Notation rwb := (rw_blk t J Sy rl HG).

Definition Zk (x : nat -> nat -> nat -> C) (b k o : nat) : C := Z k b (fun a o' => odft (origin t) M L (fun i => x a i o') k) o.
Definition out (x : nat -> nat -> nat -> C) (b i o : nat) : C := oidft (origin t) M (fun k => Zk x b k o) i.

(** the rows of the transformed data are acceptable to the row operation *)
Definition okd (x : nat -> nat -> nat -> C) : Prop := forall k, okx (fun a o => odft (origin t) M L (fun i => x a i o) k).

Lemma rdy_only Q (m m' : mem) : (forall th, th < T -> rdy th m) -> only Q m m' ->
  (forall th ad, th < T -> P th ad = true -> ~ Q ad) -> forall th, th < T -> rdy th m'.
Proof. intros H [HF _] Hn th Hth. eapply (o_loc HO); [|apply H; assumption]. intros ad Hp. symmetry. apply HF. eapply Hn; eassumption. Qed.

(** rows of a pass held in the arrays H (F or Fp) *)
Lemma sub0 (F : parr) (H : nat -> addr) r x (m0 : mem) :
  (forall a, a < A -> F a = Some (H a)) ->
  (forall a b, a < A -> b < A -> a <> b -> dj (H a) (S * l) (H b) (S * l)) ->
  (forall th a ad, th < T -> a < A -> P th ad = true -> ad < H a \/ H a + S * l <= ad) ->
  (forall i, i < l -> ok_index (index t r i)) -> (forall i, i < l -> okx (fun a o => x a i o)) -> schedule T l (lsch ly r) ->
  (forall a, a < A -> hasr (H a) l (x a) m0) -> (forall th, th < T -> rdy th m0) ->
  TWP (lsub ly F r 0) m0 (fun m' =>
    (forall b, b < B -> hasr (H b) l (fun i o => Z (index t r i) b (fun a o' => x a i o') o) m') /\ (forall th, th < T -> rdy th m') /\
    only (fun ad => (exists a, a < A /\ rw (H a) l ad) \/ (exists th, th < T /\ P th ad = true)) m0 m').
Proof.
  intros EF HH HP Hi Hok Hs Hx Hr.
  eapply TWP_mono; [|apply (sub_spec ly rl HG P rdy (o_loc HO) (o_PP HO) Z ok_index okx (o_row HO) (o_good HO) (o_BA HO) F H 0 r x)]; auto.
  - intros m' (H1 & H2 & H3). split; [|split; [assumption|]].
    + intros b Hb. specialize (H1 b Hb). rewrite Nat.add_0_r in H1. exact H1.
    + eapply only_mono; [exact H3|]. intros ad [(a & Ha & Hq)|Hq]; [left; exists a; rewrite Nat.add_0_r in Hq; auto|right; assumption].
  - intros a b Ha Hb Hne. rewrite !Nat.add_0_r. auto.
  - intros th a ad Hth Ha Hp. rewrite !Nat.add_0_r. eapply HP; eassumption.
  - intros a Ha. rewrite Nat.add_0_r. auto.
Qed.

(** **** one pass of the residue loop *)
Section Pass.
Hypothesis How : goverwrite t = false.
Variables (f : parr) (fa : nat -> addr) (off : nat).
Hypothesis HA : larg f fa off.

Lemma pass_spec (h : parr) (ha : nat -> addr) ho r x acc (m0 : mem) : okd x -> In r (residues t) ->
  (forall b, b < B -> h b = Some (ha b)) ->
  (forall a b, a < B -> b < A -> dj (ha a + ho) (S * L) (G b) (S * l)) ->
  (forall a b, a < B -> b < B -> a <> b -> dj (ha a + ho) (S * L) (ha b + ho) (S * L)) ->
  (forall a, a < B -> Wfree W (ha a + ho) (S * L)) ->
  (forall th b ad, th < T -> b < B -> P th ad = true -> ad < ha b + ho \/ ha b + ho + S * L <= ad) ->
  (forall a, a < A -> hasr (fa a + off) L (x a) m0) -> lst m0 ->
  (forall b, b < B -> allocr (ha b + ho) L m0) -> (r <> 0 -> forall b, b < B -> hasr (ha b + ho) L (acc b) m0) ->
  TWP (TSeq (emb (lforward ly f (lF ly) r 0 A off)) (TSeq (lsub ly (lF ly) r 0) (emb (lbackward ly (lF ly) h r 0 B ho W)))) m0 (fun m' =>
    (forall b, b < B -> hasr (ha b + ho) L (fun k o => Cadd (if r =? 0 then C0 else acc b k o)
        (badd t r (fun i => Zk x b (index t r i) o) k)) m') /\
    lst m' /\
    only (fun ad => (exists b, b < B /\ rw (ha b + ho) L ad) \/ (exists a, a < A /\ rw (G a) l ad) \/ Ww W ad \/ exists th, th < T /\ P th ad = true) m0 m').
Proof.
  intros Hokd Hr Eh HhF Hhh HhW HPh Hx Hst Hhal Hacc. destruct Hst as [SF SV SW SR]. pose proof (o_BA HO) as HBA.
  apply TWP_seq. apply TWP_emb.
  eapply WP_mono; [|apply (fwdN ly rl HG How f (lF ly) fa G off r 0 A x m0 Hr)].
  2:{ intros; apply (a_f _ _ _ HA); lia. } 2:{ intros; apply (o_F HO); lia. } 2:{ intros; apply (a_fF _ _ _ HA); lia. }
  2:{ intros; apply (o_FF HO); lia. } 2:{ intros; apply (a_fW _ _ _ HA); lia. } 2:{ intros; apply (o_FW HO); lia. }
  2:{ intros; apply Hx; lia. } 2:{ intros; apply SF; lia. } 2: assumption.
  intros m1 (A1 & A2 & A3). apply TWP_seq.
  assert (R1 : forall th, th < T -> rdy th m1).
  { eapply rdy_only; [exact SR|exact A3|]. intros th ad Hth Hp [(a & Ha & Hq)|Hq].
    - apply rwb in Hq. destruct (o_PF HO th a ad Hth ltac:(lia) Hp); lia.
    - eapply (o_PW HO); eassumption. }
  eapply TWP_mono; [|apply (sub0 (lF ly) G r (fun a i o => odft (origin t) M L (fun k => x a k o) (index t r i)) m1)].
  2:{ apply (o_F HO). } 2:{ apply (o_FF HO). } 2:{ apply (o_PF HO). } 2:{ intros; apply (o_idx HO); assumption. } 2:{ intros; apply Hokd. }
  2:{ apply (o_sch HO). auto. } 2:{ intros; apply A1; lia. } 2: assumption.
  intros m2 (B1 & B2 & B3). apply TWP_emb.
  assert (W2 : Wst W m2).
  { eapply Wst_only; [exact A2|exact B3|]. intros ad [(a & Ha & Hq)|(th & Hth & Hp)] Hw.
    - eapply (Wfree_no t J Sy rl HG); [apply (o_FW HO a Ha)|eapply rwb; exact Hq|exact Hw].
    - eapply (o_PW HO); eassumption. }
  assert (O2 : only (fun ad => (exists a, a < A /\ rw (G a) l ad) \/ Ww W ad \/ exists th, th < T /\ P th ad = true) m0 m2).
  { eapply only_trans; [exact A3|exact B3| |].
    - intros ad [(a & Ha & Hq)|Hq]; [left; exists a; split; [lia|assumption]|auto].
    - intros ad [Hq|Hq]; auto. }
  eapply WP_mono; [|apply (bwdN ly rl HG How (lF ly) h G ha ho r 0 B (fun b i o => Zk x b (index t r i) o) acc m2 Hr)].
  2:{ intros; apply (o_F HO); lia. } 2:{ intros; apply Eh; lia. } 2:{ intros; apply HhF; lia. } 2:{ intros; apply (o_FF HO); lia. }
  2:{ intros; apply Hhh; lia. } 2:{ intros; apply HhW; lia. } 2:{ intros; apply (o_FW HO); lia. } 2:{ intros; apply B1; lia. }
  2:{ intros b Hb. eapply allocr_only; [apply Hhal; lia|exact O2]. }
  2:{ intros Hr0 b Hb. eapply hasr_only; [apply (Hacc Hr0); lia|exact O2|]. intros ad [(a & Ha & Hp)|[Hp|(th & Hth & Hp)]] Hq.
      - eapply rwd; [|exact Hq|exact Hp]. apply HhF; lia.
      - eapply (Wfree_no t J Sy rl HG W (ha b + ho)); [apply HhW; lia|eapply rwb; exact Hq|exact Hp].
      - apply rwb in Hq. destruct (HPh th b ad Hth ltac:(lia) Hp); lia. }
  2:{ apply W2. }
  intros m3 (D1 & D2 & D3).
  assert (O3 : only (fun ad => (exists b, b < B /\ rw (ha b + ho) L ad) \/ (exists a, a < A /\ rw (G a) l ad) \/ Ww W ad \/ exists th, th < T /\ P th ad = true) m0 m3).
  { eapply only_trans; [exact O2|exact D3|auto|]. intros ad [(b & Hb & [Hq|Hq])|Hq]; [left; exists b; split; [lia|assumption]|right; left; exists b; split; [lia|assumption]|auto]. }
  split; [intros b Hb; apply D1; lia|]. split; [|assumption].
  split.
  - intros a Ha. eapply allocr_only; [apply SF; assumption|exact O3].
  - intros HV b Hb. eapply allocr_only; [apply SV; assumption|exact O3].
  - exact D2.
  - eapply rdy_only; [exact B2|exact D3|]. intros th ad Hth Hp [(b & Hb & [Hq|Hq])|Hq].
    + apply rwb in Hq. destruct (HPh th b ad Hth ltac:(lia) Hp); lia.
    + apply rwb in Hq. destruct (o_PF HO th b ad Hth ltac:(lia) Hp); lia.
    + eapply (o_PW HO); eassumption.
Qed.

Lemma nores r : noutputs t r = l.
Proof. apply (noutl t J Sy rl HG). Qed.
Lemma res_hd : exists rs, residues t = 0 :: rs /\ forall r, In r rs -> r <> 0.
Proof.
  destruct (residues_shape t (g_wf _ _ _ _ HG)) as (K & E & H0 & Hd & _). eexists. split; [exact E|].
  intros r Hr. apply in_map_iff in Hr. destruct Hr as (i & <- & _). nia.
Qed.
Definition share (x : nat -> nat -> nat -> C) (b k o r : nat) : C := badd t r (fun i => Zk x b (index t r i) o) k.
Lemma share_sum x b k o : Clist (residues t) (share x b k o) = out x b k o.
Proof.
  unfold out. rewrite <- ConvProofs.idftx_odft. rewrite <- (pass_sum t (g_wf _ _ _ _ HG)).
  reflexivity.
Qed.

Lemma one_loop x (m0 : mem) : okd x -> nloops t = 1 ->
  (forall a, a < A -> hasr (fa a + off) L (x a) m0) -> lst m0 ->
  TWP (tlist (residues t) (fun rx => TSeq (emb (lforward ly f (lF ly) rx 0 A off)) (TSeq (lsub ly (lF ly) rx 0) (emb (lbackward ly (lF ly) f rx 0 B off W))))) m0 (fun m' =>
    (forall b, b < B -> hasr (fa b + off) L (out x b) m') /\ lst m' /\ only (touched fa off) m0 m').
Proof.
  intros Hokd Hn Hx Hst. pose proof (o_BA HO) as HBA. destruct res_hd as (rs & E & _). assert (Ers : rs = []).
  { unfold nloops in Hn. rewrite E in Hn. destruct rs; [reflexivity|discriminate]. } subst rs.
  pose proof (share_sum x) as HS. rewrite E in *. cbn [tlist]. apply TWP_seq.
  eapply TWP_mono; [|apply (pass_spec f fa off 0 x (fun _ _ _ => C0) m0 Hokd)].
  - intros m1 (H1 & H2 & H3). apply TWP_skip. split; [|split; [assumption|]].
    + intros b Hb. eapply hasr_ext; [apply H1; assumption|]. intros i o Hi Ho. rewrite <- HS. cbn [Nat.eqb Clist fold_right]. unfold share. ring.
    + eapply only_mono; [exact H3|]. unfold touched. intros ad [(b & Hb & Hq)|[Hq|[Hq|Hq]]]; auto. left. exists b. split; [lia|assumption].
  - rewrite E; left; reflexivity.
  - intros; apply (a_f _ _ _ HA); lia.
  - intros; apply (a_fF _ _ _ HA); lia.
  - intros; apply (a_ff _ _ _ HA); lia.
  - intros; apply (a_fW _ _ _ HA); lia.
  - intros th b ad Hth Hb Hp. apply (a_Pf _ _ _ HA th b ad Hth ltac:(lia) Hp).
  - assumption.
  - assumption.
  - intros b Hb. eapply hasr_alloc. apply Hx. lia.
  - intros H; contradiction.
Qed.

Lemma many_loops x (m0 : mem) : okd x -> useV t ->
  (forall a, a < A -> hasr (fa a + off) L (x a) m0) -> lst m0 ->
  TWP (TSeq (tlist (residues t) (fun rx => TSeq (emb (lforward ly f (lF ly) rx 0 A off)) (TSeq (lsub ly (lF ly) rx 0) (emb (lbackward ly (lF ly) (lV ly) rx 0 B 0 W)))))
            (emb (lcopy ly (lV ly) f off))) m0 (fun m' =>
    (forall b, b < B -> hasr (fa b + off) L (out x b) m') /\ lst m' /\ only (touched fa off) m0 m').
Proof.
  intros Hokd HV Hx Hst. pose proof (o_BA HO) as HBA.
  assert (Hmain : forall rest pre mm, residues t = pre ++ rest ->
    (forall a, a < A -> hasr (fa a + off) L (x a) mm) -> lst mm ->
    (pre <> [] -> forall b, b < B -> hasr (v b) L (fun k o => Clist pre (share x b k o)) mm) ->
    TWP (tlist rest (fun rx => TSeq (emb (lforward ly f (lF ly) rx 0 A off)) (TSeq (lsub ly (lF ly) rx 0) (emb (lbackward ly (lF ly) (lV ly) rx 0 B 0 W))))) mm (fun m' =>
      (forall b, b < B -> hasr (v b) L (out x b) m') /\ lst m' /\
      only (fun ad => (exists a, a < A /\ rw (G a) l ad) \/ (useV t /\ exists b, b < B /\ rw (v b) L ad) \/ Ww W ad \/ (exists th, th < T /\ P th ad = true)) mm m')).
  { induction rest as [|r rest IH]; intros pre mm Er Hxm Hsm Hacc.
    - cbn [tlist]. apply TWP_skip. rewrite app_nil_r in Er. split; [|split; [assumption|apply only_refl]].
      intros b Hb. eapply hasr_ext; [apply Hacc; [|assumption]|].
      + destruct res_hd as (rs & E & _). rewrite <- Er, E. discriminate.
      + intros i o Hi Ho. rewrite <- Er. apply share_sum.
    - cbn [tlist]. apply TWP_seq.
      assert (Hr0 : (r = 0 /\ pre = []) \/ (r <> 0 /\ pre <> [])).
      { destruct res_hd as (rs & E & Hn). rewrite E in Er. destruct pre as [|p0 pre].
        - cbn [app] in Er. injection Er as <- _. auto.
        - cbn [app] in Er. injection Er as _ Er. right. split; [|discriminate]. apply Hn. rewrite Er. apply in_or_app. right; left; reflexivity. }
      eapply TWP_mono; [|apply (pass_spec (lV ly) v 0 r x (fun b k o => Clist pre (share x b k o)) mm Hokd)].
      + intros m1 (H1 & H2 & H3).
        assert (H3' : only (fun ad => (exists a, a < A /\ rw (G a) l ad) \/ (useV t /\ exists b, b < B /\ rw (v b) L ad) \/ Ww W ad \/ (exists th, th < T /\ P th ad = true)) mm m1).
        { eapply only_mono; [exact H3|]. intros ad [(b & Hb & Hq)|[Hq|[Hq|Hq]]]; auto. right; left. split; [assumption|]. exists b. rewrite Nat.add_0_r in Hq. auto. }
        eapply TWP_mono; [|apply (IH (pre ++ [r]) m1)].
        * intros m2 (K1 & K2 & K3). split; [assumption|]. split; [assumption|]. eapply only_trans; [exact H3'|exact K3| |]; auto.
        * rewrite <- app_assoc. exact Er.
        * intros a Ha. eapply hasr_only; [apply Hxm; assumption|exact H3'|]. intros ad [(b & Hb & Hp)|[(_ & b & Hb & Hp)|[Hp|(th & Hth & Hp)]]] Hq.
          -- eapply rwd; [|exact Hq|exact Hp]. apply (a_fF _ _ _ HA); assumption.
          -- eapply rwd; [|exact Hp|exact Hq]. apply (a_fV _ _ _ HA); assumption.
          -- eapply (Wfree_no t J Sy rl HG W (fa a + off)); [apply (a_fW _ _ _ HA); assumption|eapply rwb; exact Hq|exact Hp].
          -- apply rwb in Hq. destruct (a_Pf _ _ _ HA th a ad Hth Ha Hp); lia.
        * assumption.
        * intros _ b Hb. specialize (H1 b Hb). rewrite Nat.add_0_r in H1. eapply hasr_ext; [exact H1|].
          intros i o Hi Ho. cbv beta. rewrite Clist_snoc. unfold share at 3. f_equal.
          destruct Hr0 as [[-> ->]|[Hr0 _]]; [reflexivity|]. apply Nat.eqb_neq in Hr0. rewrite Hr0. reflexivity.
      + rewrite Er. apply in_or_app. right; left; reflexivity.
      + intros; apply (o_V HO); assumption.
      + intros a b Ha Hb. rewrite Nat.add_0_r. apply (o_VF HO HV); assumption.
      + intros a b Ha Hb Hne. rewrite !Nat.add_0_r. apply (o_VV HO HV); assumption.
      + intros a Ha. rewrite Nat.add_0_r. apply (o_VW HO HV); assumption.
      + intros th b ad Hth Hb Hp. rewrite Nat.add_0_r. apply (o_PV HO HV th b ad Hth Hb Hp).
      + assumption.
      + assumption.
      + intros b Hb. rewrite Nat.add_0_r. apply (s_V _ Hsm HV b Hb).
      + intros Hne b Hb. rewrite Nat.add_0_r. apply Hacc; [|assumption]. destruct Hr0 as [[-> _]|[_ H]]; [contradiction|assumption]. }
  apply TWP_seq. eapply TWP_mono; [|apply (Hmain (residues t) [] m0); auto; intros H; contradiction].
  intros m1 (H1 & H2 & H3). apply TWP_emb.
  eapply WP_mono; [|apply (copy_spec ly rl HG (o_cgeo HO) (lV ly) f v fa off (out x) m1)].
  - intros m2 (K1 & K2).
    assert (O : only (touched fa off) m0 m2).
    { eapply only_trans; [exact H3|exact K2|unfold touched; auto|]. intros ad (b & Hb & Hq). left. exists b. split; [lia|assumption]. }
    split; [assumption|]. split; [|assumption]. destruct H2 as [S1 S2 S3 S4]. split.
    + intros a Ha. eapply allocr_only; [apply S1; assumption|exact K2].
    + intros _ b Hb. eapply allocr_only; [apply S2; assumption|exact K2].
    + eapply Wst_only; [exact S3|exact K2|]. intros ad (b & Hb & Hq) Hw.
      eapply (Wfree_no t J Sy rl HG W (fa b + off)); [apply (a_fW _ _ _ HA); lia|eapply rwb; exact Hq|exact Hw].
    + eapply rdy_only; [exact S4|exact K2|]. intros th ad Hth Hp (b & Hb & Hq). apply rwb in Hq. destruct (a_Pf _ _ _ HA th b ad Hth ltac:(lia) Hp); lia.
  - intros; apply (o_V HO HV); assumption.
  - intros; apply (a_f _ _ _ HA); lia.
  - intros; apply (a_fV _ _ _ HA); auto; lia.
  - intros; apply (a_ff _ _ _ HA); lia.
  - assumption.
  - intros b Hb. eapply allocr_only; [|exact H3]. eapply hasr_alloc. apply Hx. lia.
Qed.

(** **** two passes without V: loop2 with A = B+1 *)
Definition sgm (b : nat) : nat := if b =? 0 then A - 1 else b - 1.
Definition Gs (b : nat) : addr := G (sgm b).
Lemma sgm_lt b : b < A -> sgm b < A.
Proof. unfold sgm. destruct (Nat.eqb_spec b 0); lia. Qed.
Lemma sgm_inj b b' : b < A -> b' < A -> b <> b' -> sgm b <> sgm b'.
Proof. unfold sgm. destruct (Nat.eqb_spec b 0), (Nat.eqb_spec b' 0); lia. Qed.

Lemma lst_step Q (m m' : mem) : lst m -> only Q m m' -> Wst W m' -> (forall th ad, th < T -> P th ad = true -> ~ Q ad) -> lst m'.
Proof.
  intros [S1 S2 S3 S4] Ho HW Hn. split; [| |assumption|].
  - intros a Ha. eapply allocr_only; [apply S1; assumption|exact Ho].
  - intros HV b Hb. eapply allocr_only; [apply S2; assumption|exact Ho].
  - eapply rdy_only; eassumption.
Qed.
Lemma Pf_no th a ad : th < T -> a < A -> P th ad = true -> rw (fa a + off) L ad -> False.
Proof. intros Hth Ha Hp Hq. apply rwb in Hq. destruct (a_Pf _ _ _ HA th a ad Hth Ha Hp); lia. Qed.
Lemma PG_no th a ad : th < T -> a < A -> P th ad = true -> rw (G a) l ad -> False.
Proof. intros Hth Ha Hp Hq. apply rwb in Hq. destruct (o_PF HO th a ad Hth Ha Hp); lia. Qed.
Lemma Wf_no a ad : a < A -> Ww W ad -> rw (fa a + off) L ad -> False.
Proof. intros Ha Hp Hq. eapply (Wfree_no t J Sy rl HG W (fa a + off)); [apply (a_fW _ _ _ HA); assumption|eapply rwb; exact Hq|exact Hp]. Qed.
Lemma WG_no a ad : a < A -> Ww W ad -> rw (G a) l ad -> False.
Proof. intros Ha Hp Hq. eapply (Wfree_no t J Sy rl HG W (G a)); [apply (o_FW HO); assumption|eapply rwb; exact Hq|exact Hp]. Qed.
Lemma fG_no a b ad : a < A -> b < A -> rw (fa a + off) L ad -> rw (G b) l ad -> False.
Proof. intros Ha Hb H1 H2. eapply rwd; [|exact H1|exact H2]. apply (a_fF _ _ _ HA); assumption. Qed.
Lemma GG_no a b ad : a < A -> b < A -> a <> b -> rw (G a) l ad -> rw (G b) l ad -> False.
Proof. intros Ha Hb Hne H1 H2. eapply rwd; [|exact H1|exact H2]. apply (o_FF HO); assumption. Qed.
Lemma ff_no a b ad : a < A -> b < A -> a <> b -> rw (fa a + off) L ad -> rw (fa b + off) L ad -> False.
Proof. intros Ha Hb Hne H1 H2. eapply rwd; [|exact H1|exact H2]. apply (a_ff _ _ _ HA); assumption. Qed.

Lemma two_loops x (m0 : mem) : okd x -> loop2 t = true ->
  (forall a, a < A -> hasr (fa a + off) L (x a) m0) -> lst m0 ->
  TWP (let r := increment t 0 in
    TSeq (emb (lforward ly f (lF ly) 0 0 A off))
   (TSeq (lsub ly (lF ly) 0 0)
         (ll2loop ly B 0 f off r (fun a =>
            TSeq (emb (lforward ly f (lFp ly) r a A off))
           (TSeq (lsub ly (lFp ly) r 0)
                 (emb (lbackward ly (lFp ly) f r 0 B off (lW0 ly)))))))) m0 (fun m' =>
    (forall b, b < B -> hasr (fa b + off) L (out x b) m') /\ lst m' /\ only (touched fa off) m0 m').
Proof.
  intros Hokd Hl2 Hx Hst. cbv zeta. pose proof (o_l2 HO Hl2) as EA. pose proof (o_W0 HO Hl2) as EW0. rewrite EW0.
  assert (EFp : forall a, a < A -> lFp ly a = Some (Gs a)) by (intros; apply (o_Fp HO Hl2); assumption).
  pose proof Hl2 as Hl2'. unfold loop2 in Hl2'. repeat rewrite andb_true_iff in Hl2'. destruct Hl2' as ((Hn2 & _) & _).
  apply Nat.eqb_eq in Hn2.
  assert (ER : residues t = [0; increment t 0] /\ increment t 0 <> 0).
  { destruct (residues_shape t (g_wf _ _ _ _ HG)) as (k & ER & H0 & _). unfold nloops in Hn2. rewrite ER in *. cbn [length] in Hn2.
    rewrite map_length, seq_length in Hn2. assert (k = 1) by lia. subst k. cbn [seq map]. rewrite Nat.mul_0_r, Nat.add_0_r. split; [reflexivity|lia]. }
  destruct ER as [ER Hr0]. set (r := increment t 0) in *. clearbody r.
  assert (HR0 : In 0 (residues t)) by (rewrite ER; left; reflexivity).
  assert (HRr : In r (residues t)) by (rewrite ER; right; left; reflexivity).
  destruct Hst as [SF SV SW SR]. assert (Hst : lst m0) by (split; assumption).
  (* forward, residue 0 *)
  apply TWP_seq, TWP_emb. eapply WP_mono; [|apply (fwdN ly rl HG How f (lF ly) fa G off 0 0 A x m0 HR0)].
  2:{ intros; apply (a_f _ _ _ HA); lia. } 2:{ intros; apply (o_F HO); lia. } 2:{ intros; apply (a_fF _ _ _ HA); lia. }
  2:{ intros; apply (o_FF HO); lia. } 2:{ intros; apply (a_fW _ _ _ HA); lia. } 2:{ intros; apply (o_FW HO); lia. }
  2:{ intros; apply Hx; lia. } 2:{ intros; apply SF; lia. } 2: assumption.
  intros m1 (A1 & A2 & A3). apply TWP_seq.
  assert (L1 : lst m1).
  { eapply lst_step; [exact Hst|exact A3|exact A2|]. intros th ad Hth Hp [(a & Ha & Hq)|Hq].
    - eapply PG_no; [exact Hth| |exact Hp|exact Hq]; lia.
    - eapply (o_PW HO); eassumption. }
  eapply TWP_mono; [|apply (sub0 (lF ly) G 0 (fun a i o => odft (origin t) M L (fun k => x a k o) (index t 0 i)) m1)].
  2:{ apply (o_F HO). } 2:{ apply (o_FF HO). } 2:{ apply (o_PF HO). } 2:{ intros; apply (o_idx HO); assumption. } 2:{ intros; apply Hokd. }
  2:{ apply (o_sch HO). auto. } 2:{ intros; apply A1; lia. } 2:{ apply (s_r _ L1). }
  intros m2 (B1 & B2 & B3).
  assert (L2 : lst m2).
  { destruct L1 as [T1 T2 T3 T4]. split; [| | |assumption].
    - intros a Ha. eapply allocr_only; [apply T1; assumption|exact B3].
    - intros HV b Hb. eapply allocr_only; [apply T2; assumption|exact B3].
    - eapply Wst_only; [exact A2|exact B3|]. intros ad [(a & Ha & Hq)|(th & Hth & Hp)] Hw; [eapply WG_no; eassumption|eapply (o_PW HO); eassumption]. }
  assert (O2 : only (touched fa off) m0 m2).
  { eapply only_trans; [exact A3|exact B3| |]; unfold touched.
    - intros ad [(a & Ha & Hq)|Hq]; [right; left; exists a; split; [lia|assumption]|auto].
    - intros ad [Hq|Hq]; auto. }
  assert (X2 : forall a, a < A -> hasr (fa a + off) L (x a) m2).
  { intros a Ha. eapply hasr_only; [eapply hasr_only; [apply Hx; assumption|exact A3|]|exact B3|].
    - intros ad [(b & Hb & Hp)|Hp] Hq; [eapply fG_no; [exact Ha| |exact Hq|exact Hp]; lia|eapply Wf_no; eassumption].
    - intros ad [(b & Hb & Hp)|(th & Hth & Hp)] Hq; [eapply fG_no; [exact Ha|exact Hb|exact Hq|exact Hp]|eapply Pf_no; eassumption]. }
  set (Xr := fun a i o => odft (origin t) M L (fun k => x a k o) (index t r i)).
  pose (I := fun a (mm : mem) =>
    (forall b, b < a -> hasr (fa b + off) L (fun k o => share x b k o 0) mm) /\
    (forall b, a <= b < A -> hasr (fa b + off) L (x b) mm) /\
    (forall b, a <= b < B -> hasr (G b) l (fun i o => Zk x b (index t 0 i) o) mm) /\
    (forall b, b < a -> hasr (Gs b) l (Xr b) mm) /\
    lst mm /\ only (touched fa off) m0 mm).
  assert (HI0 : I 0 m2).
  { split; [intros; lia|]. split; [intros; apply X2; lia|]. split; [intros b Hb; apply (B1 b); lia|]. split; [intros; lia|]. auto. }
  assert (HGs : forall b, b < A -> sgm b < A) by (intros; apply sgm_lt; assumption).
  assert (DGs : forall a b, a < A -> b < A -> a <> b -> dj (Gs a) (S * l) (Gs b) (S * l)).
  { intros. apply (o_FF HO); auto. apply sgm_inj; assumption. }
  assert (Hfin : forall mm, I B mm ->
    TWP (TSeq (emb (lforward ly f (lFp ly) r B A off)) (TSeq (lsub ly (lFp ly) r 0) (emb (lbackward ly (lFp ly) f r 0 B off W)))) mm
      (fun m' => (forall b, b < B -> hasr (fa b + off) L (out x b) m') /\ lst m' /\ only (touched fa off) m0 m')).
  { intros mm (I1 & I2 & _ & I4 & I5 & I6). apply TWP_seq, TWP_emb.
    eapply WP_mono; [|apply (fwdN ly rl HG How f (lFp ly) fa Gs off r B A x mm HRr)].
    2:{ intros; apply (a_f _ _ _ HA); lia. } 2:{ intros; apply EFp; lia. } 2:{ intros; apply (a_fF _ _ _ HA); [lia|apply HGs; lia]. }
    2:{ intros; apply DGs; lia. } 2:{ intros; apply (a_fW _ _ _ HA); lia. } 2:{ intros; apply (o_FW HO), HGs; lia. }
    2:{ intros; apply I2; lia. } 2:{ intros; apply (s_F _ I5), HGs; lia. } 2:{ apply (s_W _ I5). }
    intros m3 (C1 & C2 & C3). apply TWP_seq.
    assert (L3 : lst m3).
    { eapply lst_step; [exact I5|exact C3|exact C2|]. intros th ad Hth Hp [(a & Ha & Hq)|Hq].
      - eapply (PG_no th (sgm a)); [exact Hth|apply HGs; lia|exact Hp|exact Hq].
      - eapply (o_PW HO); eassumption. }
    eapply TWP_mono; [|apply (sub0 (lFp ly) Gs r Xr m3)].
    2:{ exact EFp. } 2:{ exact DGs. } 2:{ intros th a ad Hth Ha Hp. apply (o_PF HO th (sgm a) ad Hth (HGs a Ha) Hp). } 2:{ intros; apply (o_idx HO); assumption. } 2:{ intros; apply Hokd. }
    2:{ apply (o_sch HO). auto. }
    2:{ intros a Ha. destruct (Nat.eq_dec a B) as [->|Hne]; [apply C1; lia|].
        eapply hasr_only; [apply I4; lia|exact C3|]. intros ad [(b & Hb & Hp)|Hp] Hq.
        - eapply rwd; [|exact Hq|exact Hp]. apply DGs; lia.
        - eapply WG_no; [|exact Hp|exact Hq]. apply HGs; lia. }
    2:{ apply (s_r _ L3). }
    intros m4 (D1 & D2 & D3). apply TWP_emb.
    assert (L4 : lst m4).
    { destruct L3 as [T1 T2 T3 T4]. split; [| | |assumption].
      - intros a Ha. eapply allocr_only; [apply T1; assumption|exact D3].
      - intros HV b Hb. eapply allocr_only; [apply T2; assumption|exact D3].
      - eapply Wst_only; [exact C2|exact D3|]. intros ad [(a & Ha & Hq)|(th & Hth & Hp)] Hw; [eapply (WG_no (sgm a)); [apply HGs; exact Ha|eassumption|exact Hq]|eapply (o_PW HO); eassumption]. }
    assert (O4 : only (fun ad => (exists a, a < A /\ rw (G a) l ad) \/ Ww W ad \/ exists th, th < T /\ P th ad = true) mm m4).
    { eapply only_trans; [exact C3|exact D3| |].
      - intros ad [(a & Ha & Hq)|Hq]; [left; exists (sgm a); split; [apply HGs; lia|assumption]|auto].
      - intros ad [(a & Ha & Hq)|Hq]; [left; exists (sgm a); split; [apply HGs; lia|assumption]|auto]. }
    eapply WP_mono; [|apply (bwdN ly rl HG How (lFp ly) f Gs fa off r 0 B (fun b i o => Zk x b (index t r i) o) (fun b k o => share x b k o 0) m4 HRr)].
    2:{ intros; apply EFp; lia. } 2:{ intros; apply (a_f _ _ _ HA); lia. } 2:{ intros; apply (a_fF _ _ _ HA); [lia|apply HGs; lia]. }
    2:{ intros; apply DGs; lia. } 2:{ intros; apply (a_ff _ _ _ HA); lia. } 2:{ intros; apply (a_fW _ _ _ HA); lia. } 2:{ intros; apply (o_FW HO), HGs; lia. }
    2:{ intros b Hb. apply (D1 b). lia. }
    2:{ intros b Hb. eapply allocr_only; [eapply hasr_alloc, I1|exact O4]; lia. }
    2:{ intros _ b Hb. eapply hasr_only; [apply I1; lia|exact O4|]. intros ad [(a & Ha & Hp)|[Hp|(th & Hth & Hp)]] Hq.
        - eapply (fG_no b a); [lia|exact Ha|exact Hq|exact Hp].
        - eapply (Wf_no b); [lia|exact Hp|exact Hq].
        - eapply (Pf_no th b); [exact Hth|lia|exact Hp|exact Hq]. }
    2:{ apply (s_W _ L4). }
    intros m5 (E1 & E2 & E3). split; [|split].
    - intros b Hb. eapply hasr_ext; [apply E1; lia|]. intros i o Hi Ho. rewrite <- share_sum, ER. apply Nat.eqb_neq in Hr0. rewrite Hr0.
      unfold Clist. cbn [fold_right]. unfold share at 3. ring.
    - eapply lst_step; [exact L4|exact E3|exact E2|]. intros th ad Hth Hp [(b & Hb & [Hq|Hq])|Hq].
      + eapply (Pf_no th b); [exact Hth|lia|exact Hp|exact Hq].
      + eapply (PG_no th (sgm b)); [exact Hth|apply HGs; lia|exact Hp|exact Hq].
      + eapply (o_PW HO); eassumption.
    - eapply only_trans; [exact I6|eapply only_trans; [exact O4|exact E3| |]| |].
      4:{ intros ad H; exact H. } 3:{ intros ad H; exact H. }
      + unfold touched. intros ad [H|[H|H]]; auto.
      + unfold touched. intros ad [(b & Hb & [Hq|Hq])|Hq]; [left; exists b; split; [lia|assumption]|right; left; exists (sgm b); split; [apply HGs; lia|assumption]|auto]. }
  assert (Hloop : forall fuel a mm, a <= B -> B <= a + fuel -> I a mm ->
    TWP (ll2loop ly fuel a f off r (fun a => TSeq (emb (lforward ly f (lFp ly) r a A off)) (TSeq (lsub ly (lFp ly) r 0) (emb (lbackward ly (lFp ly) f r 0 B off W))))) mm
      (fun m' => (forall b, b < B -> hasr (fa b + off) L (out x b) m') /\ lst m' /\ only (touched fa off) m0 m')).
  { induction fuel as [|fuel IH]; intros a mm Ha Hf HI; cbn [ll2loop].
    - assert (a = B) by lia. subst a. apply Hfin. assumption.
    - replace (A - B) with 1 by lia. destruct (Nat.leb_spec (a + 1) B) as [Hb|Hb].
      2:{ assert (a = B) by lia. subst a. apply Hfin. assumption. }
      destruct HI as (I1 & I2 & I3 & I4 & I5 & I6). rewrite EW0.
      apply TWP_seq, TWP_emb. eapply WP_mono; [|apply (fwdN ly rl HG How f (lFp ly) fa Gs off r a (a + 1) x mm HRr)].
      2:{ intros; apply (a_f _ _ _ HA); lia. } 2:{ intros; apply EFp; lia. } 2:{ intros; apply (a_fF _ _ _ HA); [lia|apply HGs; lia]. }
      2:{ intros; apply DGs; lia. } 2:{ intros; apply (a_fW _ _ _ HA); lia. } 2:{ intros; apply (o_FW HO), HGs; lia. }
      2:{ intros; apply I2; lia. } 2:{ intros; apply (s_F _ I5), HGs; lia. } 2:{ apply (s_W _ I5). }
      intros m3 (C1 & C2 & C3).
      assert (C3' : only (fun ad => rw (Gs a) l ad \/ Ww W ad) mm m3).
      { eapply only_mono; [exact C3|]. intros ad [(b & Hb' & Hq)|Hq]; [left; replace a with b by lia; assumption|auto]. }
      assert (L3 : lst m3).
      { eapply lst_step; [exact I5|exact C3'|exact C2|]. intros th ad Hth Hp [Hq|Hq].
        - eapply (PG_no th (sgm a)); [exact Hth|apply HGs; lia|exact Hp|exact Hq].
        - eapply (o_PW HO); eassumption. }
      assert (Hsa : forall b, a <= b < B -> sgm a <> b) by (intros b Hb'; unfold sgm; destruct (Nat.eqb_spec a 0); lia).
      assert (Y3 : forall b, a <= b < B -> hasr (G b) l (fun i o => Zk x b (index t 0 i) o) m3).
      { intros b Hb'. eapply hasr_only; [apply I3; assumption|exact C3'|]. intros ad [Hp|Hp] Hq.
        - eapply (GG_no (sgm a) b); [apply HGs; lia|lia|apply Hsa; assumption|exact Hp|exact Hq].
        - eapply (WG_no b); [lia|exact Hp|exact Hq]. }
      assert (F3 : forall b y, b < A -> hasr (fa b + off) L y mm -> hasr (fa b + off) L y m3).
      { intros b y Hb' Hy. eapply hasr_only; [exact Hy|exact C3'|]. intros ad [Hp|Hp] Hq.
        - eapply (fG_no b (sgm a)); [lia|apply HGs; lia|exact Hq|exact Hp].
        - eapply (Wf_no b); [lia|exact Hp|exact Hq]. }
      apply TWP_seq, TWP_emb.
      eapply WP_mono; [|apply (bwdN ly rl HG How (lF ly) f G fa off 0 a (a + 1) (fun b i o => Zk x b (index t 0 i) o) (fun _ _ _ => C0) m3 HR0)].
      2:{ intros; apply (o_F HO); lia. } 2:{ intros; apply (a_f _ _ _ HA); lia. } 2:{ intros; apply (a_fF _ _ _ HA); lia. }
      2:{ intros; apply (o_FF HO); lia. } 2:{ intros; apply (a_ff _ _ _ HA); lia. } 2:{ intros; apply (a_fW _ _ _ HA); lia. } 2:{ intros; apply (o_FW HO); lia. }
      2:{ intros b Hb'. apply (Y3 b). lia. }
      2:{ intros b Hb'. eapply hasr_alloc, F3; [lia|]. apply I2; lia. }
      2:{ intros H; contradiction. } 2:{ exact (proj1 C2). }
      intros m4 (D1 & D2 & D3). 
      assert (D3' : only (fun ad => rw (fa a + off) L ad \/ rw (G a) l ad \/ Ww W ad) m3 m4).
      { eapply only_mono; [exact D3|]. intros ad [(b & Hb' & Hq)|Hq]; [replace b with a in Hq by lia; tauto|auto]. }
      apply IH; [lia|lia|].
      split; [|split; [|split; [|split; [|split]]]].
      + intros b Hb'. destruct (Nat.eq_dec b a) as [->|Hne].
        * eapply hasr_ext; [apply D1; lia|]. intros i o Hi Ho. cbn [Nat.eqb]. unfold share. ring.
        * eapply hasr_only; [apply F3; [lia|apply I1; lia]|exact D3'|]. intros ad [Hp|[Hp|Hp]] Hq.
          -- eapply (ff_no b a); [lia|lia|assumption|exact Hq|exact Hp].
          -- eapply (fG_no b a); [lia|lia|exact Hq|exact Hp].
          -- eapply (Wf_no b); [lia|exact Hp|exact Hq].
      + intros b Hb'. eapply hasr_only; [apply F3; [lia|apply I2; lia]|exact D3'|]. intros ad [Hp|[Hp|Hp]] Hq.
          -- eapply (ff_no b a); [lia|lia|lia|exact Hq|exact Hp].
          -- eapply (fG_no b a); [lia|lia|exact Hq|exact Hp].
          -- eapply (Wf_no b); [lia|exact Hp|exact Hq].
      + intros b Hb'. eapply hasr_only; [apply Y3; lia|exact D3'|]. intros ad [Hp|[Hp|Hp]] Hq.
          -- eapply (fG_no a b); [lia|lia|exact Hp|exact Hq].
          -- eapply (GG_no a b); [lia|lia|lia|exact Hp|exact Hq].
          -- eapply (WG_no b); [lia|exact Hp|exact Hq].
      + intros b Hb'. assert (hasr (Gs b) l (Xr b) m3) as HX.
        { destruct (Nat.eq_dec b a) as [->|Hne]; [apply C1; lia|].
          eapply hasr_only; [apply I4; lia|exact C3'|]. intros ad [Hp|Hp] Hq.
          - eapply rwd; [|exact Hq|exact Hp]. apply DGs; lia.
          - eapply (WG_no (sgm b)); [apply HGs; lia|exact Hp|exact Hq]. }
        eapply hasr_only; [exact HX|exact D3'|]. intros ad [Hp|[Hp|Hp]] Hq.
        -- eapply (fG_no a (sgm b)); [lia|apply HGs; lia|exact Hp|exact Hq].
        -- eapply (GG_no a (sgm b)); [lia|apply HGs; lia| |exact Hp|exact Hq]. unfold sgm. destruct (Nat.eqb_spec b 0); lia.
        -- eapply (WG_no (sgm b)); [apply HGs; lia|exact Hp|exact Hq].
      + eapply lst_step; [exact L3|exact D3'|exact D2|]. intros th ad Hth Hp [Hq|[Hq|Hq]].
        * eapply (Pf_no th a); [exact Hth|lia|exact Hp|exact Hq].
        * eapply (PG_no th a); [exact Hth|lia|exact Hp|exact Hq].
        * eapply (o_PW HO); eassumption.
      + eapply only_trans; [exact I6|eapply only_trans; [exact C3'|exact D3'| |]| |].
        4:{ intros ad H; exact H. } 3:{ intros ad H; exact H. }
        * unfold touched. intros ad [H|H]; [right; left; exists (sgm a); split; [apply HGs; lia|assumption]|auto].
        * unfold touched. intros ad [H|[H|H]]; [left; exists a; split; [lia|assumption]|right; left; exists a; split; [lia|assumption]|auto]. }
  apply Hloop; [lia|lia|assumption].
Qed.
End Pass.

(** **** overwrite mode *)
Section Ov.
Hypothesis How : goverwrite t = true.
Variables (f : parr) (fa : nat -> addr) (off : nat).
Hypothesis HA : larg f fa off.
Notation p := (gn t - 1).
Notation ofreq := (ofr t).

Lemma blk u : u < p -> S * u * l + S * l <= S * L.
Proof.
  intros Hu. rewrite (ow_L t J Sy rl HG How).
  replace (S * u * l + S * l) with (S * (l * (u + 1))) by ring. apply Nat.mul_le_mono_l. nia.
Qed.

Lemma overwrite_spec x (m0 : mem) : okd x ->
  (forall a, a < A -> hasr (fa a + off) L (x a) m0) -> lst m0 ->
  TWP (let final := gn t - 1 in
    TSeq (emb (lforward ly f (lF ly) 0 0 A off))
   (TSeq (tfor final (fun r => lsub ly f r (off + S * r * l)))
   (TSeq (lsub ly (lF ly) final 0)
         (emb (lbackward ly (lF ly) f 0 0 B off W))))) m0 (fun m' =>
    (forall b, b < B -> hasr (fa b + off) L (out x b) m') /\ lst m' /\ only (touched fa off) m0 m').
Proof.
  intros Hokd Hx Hst. cbv zeta. pose proof (o_BA HO) as HBA.
  assert (HM : 1 <= M). { apply (M_pos t). apply HG. }
  destruct Hst as [SF SV SW SR]. assert (Hst : lst m0) by (split; assumption).
  assert (HPf : forall th a ad, th < T -> a < A -> P th ad = true -> rw (fa a + off) L ad -> False).
  { intros th a ad Hth Ha Hp Hq. apply rwb in Hq. destruct (a_Pf _ _ _ HA th a ad Hth Ha Hp); lia. }
  assert (HPG : forall th a ad, th < T -> a < A -> P th ad = true -> rw (G a) l ad -> False).
  { intros th a ad Hth Ha Hp Hq. apply rwb in Hq. destruct (o_PF HO th a ad Hth Ha Hp); lia. }
  assert (EWn : W = None).
  { pose proof (proj1 SW) as H. unfold Layer1.Wal in H. destruct W as [w|]; [|reflexivity]. destruct H as [H _].
    rewrite (ow_in t J Sy rl HG How) in H. discriminate. }
  assert (HWst : forall mm : mem, Wst W mm).
  { intros mm. rewrite EWn in *. split; [|exact Logic.I]. exact (ow_in t J Sy rl HG How). }
  assert (NV : ~ useV t) by (intros (_ & _ & H); rewrite How in H; discriminate).
  assert (Lst : forall mm : mem, (forall a, a < A -> allocr (G a) l mm) -> (forall th, th < T -> rdy th mm) -> lst mm).
  { intros mm H1 H2. split; auto. intros H; contradiction. }
  apply TWP_seq, TWP_emb. eapply WP_mono; [|apply (ofwdN ly rl HG How f (lF ly) fa G off 0 A x m0)].
  2:{ apply HA. } 2:{ apply HO. } 2:{ apply HA. } 2:{ apply HO. } 2:{ apply HA. } 2:{ exact Hx. } 2:{ exact SF. }
  intros m1 (A0 & A1 & A3).
  assert (R1 : forall th, th < T -> rdy th m1).
  { eapply rdy_only; [exact SR|exact A3|]. intros th ad Hth Hp (a & Ha & [Hq|Hq]); [eapply HPG; eassumption|eapply HPf; eassumption]. }
  assert (E_sub : forall a u, fa a + (off + S * u * l) = fa a + off + S * (l * u)).
  { intros a u. rewrite <- Nat.mul_assoc, (Nat.mul_comm u l). lia. }
  assert (HZ : forall u i b o, u <= p -> i < l -> b < B -> col o ->
    Z (index t u i) b (fun a o' => odft (origin t) M L (fun k => x a k o') (ofreq u i)) o = Zk x b (ofreq u i) o).
  { intros u i b o Hu Hi Hb Ho. rewrite (o_ow HO How u i b (fun a o' => odft (origin t) M L (fun k => x a k o') (ofreq u i)) o Hu Hi Hb Ho).
    reflexivity. }
  pose (I := fun k (mm : mem) =>
    (forall b u, b < B -> u < k -> u < p -> hasr (fa b + off + S * (l * u)) l (fun i o => Zk x b (ofreq u i) o) mm) /\
    (forall a u, a < A -> k <= u < p -> hasr (fa a + off + S * (l * u)) l (fun i o => odft (origin t) M L (fun k => x a k o) (ofreq u i)) mm) /\
    (forall a, a < A -> hasr (G a) l (fun i o => odft (origin t) M L (fun k => x a k o) (ofreq p i)) mm) /\
    (forall th, th < T -> rdy th mm) /\ only (touched fa off) m0 mm).
  apply TWP_seq. eapply TWP_mono with (Q := I p); [|apply (TWP_for p _ I)].
  - intros m2 (I1 & _ & I3 & I4 & I5). apply TWP_seq.
    eapply TWP_mono; [|apply (sub0 (lF ly) G p (fun a i o => odft (origin t) M L (fun k => x a k o) (ofreq p i)) m2)].
    2:{ apply HO. } 2:{ apply HO. } 2:{ apply (o_PF HO). } 2:{ intros; apply (o_owi HO How); auto. } 2:{ intros; apply Hokd. } 2:{ apply (o_sch HO). auto. } 2,3: assumption.
    intros m3 (B1 & B2 & B3). apply TWP_emb.
    assert (F3 : forall b u, b < B -> u < p -> hasr (fa b + off + S * (l * u)) l (fun i o => Zk x b (ofreq u i) o) m3).
    { intros b u Hb Hu. eapply hasr_only; [apply I1; assumption|exact B3|]. intros ad [(a & Ha & Hp)|(th & Hth & Hp)] Hq;
        apply (ow_sub t J Sy rl HG How) in Hq; try assumption.
      - eapply rwd; [|exact Hq|exact Hp]. apply (a_fF _ _ _ HA); lia.
      - eapply (HPf th b); [exact Hth|lia|exact Hp|exact Hq]. }
    eapply WP_mono; [|apply (obwdN ly rl HG How (lF ly) f G fa off 0 B (fun b o k => Zk x b k o) m3 (proj1 (HWst m3)))].
    2:{ intros; apply HO; lia. } 2:{ intros; apply HA; lia. } 2:{ intros; apply HA; lia. } 2:{ intros; apply HO; lia. } 2:{ intros; apply HA; lia. }
    2: exact F3.
    2:{ intros b Hb. eapply hasr_ext; [apply B1; assumption|]. intros i o Hi Ho. apply HZ; auto. }
    intros m4 (D1 & D2 & D3). split; [|split].
    + intros b Hb. apply D1. assumption.
    + apply Lst.
      * intros a Ha. eapply allocr_only; [eapply allocr_only; [eapply hasr_alloc, I3; exact Ha|exact B3]|exact D3].
      * eapply rdy_only; [exact B2|exact D3|]. intros th ad Hth Hp (a & Ha & [Hq|Hq]);
          [eapply (HPG th a); [exact Hth|lia|exact Hp|exact Hq]|eapply (HPf th a); [exact Hth|lia|exact Hp|exact Hq]].
    + eapply only_trans; [exact I5|eapply only_trans; [exact B3|exact D3| |]| |].
      4:{ intros ad H; exact H. } 3:{ intros ad H; exact H. }
      * unfold touched. intros ad [H|H]; auto.
      * unfold touched. intros ad (a & Ha & [H|H]); [right; left|left]; exists a; (split; [lia|assumption]).
  - split; [intros; lia|]. split; [intros; apply A0; lia|]. split; [exact A1|]. split; [exact R1|].
    eapply only_mono; [exact A3|]. unfold touched. intros ad (a & Ha & [H|H]); [right; left|left]; exists a; auto.
  - intros u mm Hu (I1 & I2 & I3 & I4 & I5).
    assert (Hbl : S * u * l + S * l <= S * L) by (apply blk; assumption).
    eapply TWP_mono; [|apply (sub_spec ly rl HG P rdy (o_loc HO) (o_PP HO) Z ok_index okx (o_row HO) (o_good HO) (o_BA HO) f fa (off + S * u * l) u
       (fun a i o => odft (origin t) M L (fun k => x a k o) (ofreq u i)))].
    + intros m' (H1 & H2 & H3).
      assert (H3' : only (fun ad => (exists a, a < A /\ rw (fa a + off + S * (l * u)) l ad) \/ (exists th, th < T /\ P th ad = true)) mm m').
      { eapply only_mono; [exact H3|]. intros ad [(a & Ha & Hq)|H]; [left; exists a; rewrite E_sub in Hq; auto|auto]. }
      assert (Hoth : forall b u' ad, b < A -> u' < p -> u' <> u ->
        ((exists a, a < A /\ rw (fa a + off + S * (l * u)) l ad) \/ (exists th, th < T /\ P th ad = true)) -> rw (fa b + off + S * (l * u')) l ad -> False).
      { intros b u' ad Hb Hu' Hne [(a & Ha & Hp)|(th & Hth & Hp)] Hq.
        - destruct (Nat.eq_dec a b) as [->|Hab].
          + eapply rwd; [|exact Hq|exact Hp]. unfold dj. assert (l * u' + l <= l * u \/ l * u + l <= l * u') as [H|H] by (destruct (Nat.lt_total u' u) as [?|[?|?]]; [left|contradiction|right]; nia).
            * left. assert (S * (l * u') + S * l <= S * (l * u)) by (rewrite <- Nat.mul_add_distr_l; apply Nat.mul_le_mono_l; assumption). lia.
            * right. assert (S * (l * u) + S * l <= S * (l * u')) by (rewrite <- Nat.mul_add_distr_l; apply Nat.mul_le_mono_l; assumption). lia.
          + apply (ow_sub t J Sy rl HG How) in Hq, Hp; try assumption. eapply rwd; [|exact Hp|exact Hq]. apply (a_ff _ _ _ HA); assumption.
        - apply (ow_sub t J Sy rl HG How) in Hq; try assumption. eapply HPf; [exact Hth| |exact Hp|exact Hq]. lia. }
      split; [|split; [|split; [|split]]].
      * intros b u' Hb Hu' Hup. destruct (Nat.eq_dec u' u) as [->|Hne].
        -- specialize (H1 b Hb). rewrite E_sub in H1. eapply hasr_ext; [exact H1|]. intros i o Hi Ho. unfold res.
           rewrite HZ; [reflexivity|lia|assumption|assumption|assumption].
        -- eapply hasr_only; [apply I1; [assumption|lia|assumption]|exact H3'|]. intros ad Hp Hq. eapply (Hoth b u' ad); [lia|assumption|assumption|exact Hp|exact Hq].
      * intros a u' Ha Hu'. eapply hasr_only; [apply I2; [assumption|lia]|exact H3'|]. intros ad Hp Hq. eapply (Hoth a u' ad); [assumption|lia|lia|exact Hp|exact Hq].
      * intros a Ha. eapply hasr_only; [apply I3; assumption|exact H3'|]. intros ad [(b & Hb & Hp)|(th & Hth & Hp)] Hq.
        -- apply (ow_sub t J Sy rl HG How) in Hp; try assumption. eapply rwd; [|exact Hp|exact Hq]. apply (a_fF _ _ _ HA); assumption.
        -- eapply HPG; eassumption.
      * exact H2.
      * eapply only_trans; [exact I5|exact H3'|auto|]. unfold touched. intros ad [(a & Ha & Hp)|H]; [left; exists a|auto].
        split; [assumption|]. apply (ow_sub t J Sy rl HG How) in Hp; assumption.
    + apply HA.
    + intros a b Ha Hb Hne. pose proof (a_ff _ _ _ HA a b Ha Hb Hne) as Hd. unfold dj in *. clear - Hd Hbl. lia.
    + intros th a ad Hth Ha Hp. destruct (a_Pf _ _ _ HA th a ad Hth Ha Hp); lia.
    + intros i Hi. apply (o_owi HO How); [lia|assumption].
    + intros i Hi. apply Hokd.
    + apply (o_sch HO). right. split; [assumption|lia].
    + intros a Ha. rewrite E_sub. apply I2; [assumption|lia].
    + assumption.
Qed.
End Ov.

Lemma raw_spec f fa off x (m0 : mem) : okd x -> larg f fa off ->
  (forall a, a < A -> hasr (fa a + off) L (x a) m0) -> lst m0 ->
  TWP (lconvolveRaw ly f off) m0 (fun m' =>
    (forall b, b < B -> hasr (fa b + off) L (out x b) m') /\ lst m' /\ only (touched fa off) m0 m').
Proof.
  intros Hokd HA Hx Hst. unfold lconvolveRaw. destruct (goverwrite t) eqn:How; [apply overwrite_spec; auto|].
  destruct (loop2 t) eqn:Hl2; [apply two_loops; auto|]. cbv zeta. destruct (Nat.ltb_spec 1 (nloops t)) as [Hn|Hn].
  - apply many_loops; auto. repeat split; auto.
  - assert (E : nloops t = 1). { destruct res_hd as (rs & E & _). unfold nloops in *. rewrite E in *. cbn [length] in *. lia. }
    apply TWP_seq. eapply TWP_mono; [|apply one_loop; eauto]. intros m' H. apply TWP_skip. exact H.
Qed.
Lemma convolve_spec f fa off x (m0 : mem) : okd x -> larg f fa off ->
  (forall a, a < A -> hasr (fa a + off) L (x a) m0) -> lst m0 ->
  TWP (lconvolve ly f off) m0 (fun m' =>
    (forall b, b < B -> hasr (fa b + off) L (fun i o => Cmul (out x b i o) (RtoC (lscale ly))) m') /\ lst m' /\ only (touched fa off) m0 m').
Proof.
  intros Hokd HA Hx Hst. unfold lconvolve. pose proof (o_BA HO) as HBA. apply TWP_seq. eapply TWP_mono; [|apply raw_spec; eauto].
  intros m1 (H1 & H2 & H3). apply TWP_emb.
  eapply WP_mono; [|apply (normalize_spec ly rl HG (o_cgeo HO) f fa off (out x) m1)].
  - intros m2 (K1 & K2). split; [assumption|]. split.
    + destruct H2 as [S1 S2 S3 S4]. split.
      * intros a Ha. eapply allocr_only; [apply S1; assumption|exact K2].
      * intros HV b Hb. eapply allocr_only; [apply S2; assumption|exact K2].
      * eapply Wst_only; [exact S3|exact K2|]. intros ad (b & Hb & Hq) Hw.
        eapply (Wfree_no t J Sy rl HG W (fa b + off)); [apply (a_fW _ _ _ HA); lia|eapply rwb; exact Hq|exact Hw].
      * eapply rdy_only; [exact S4|exact K2|]. intros th ad Hth Hp (b & Hb & Hq). apply rwb in Hq. destruct (a_Pf _ _ _ HA th b ad Hth ltac:(lia) Hp); lia.
    + eapply only_trans; [exact H3|exact K2|auto|]. intros ad (b & Hb & Hq). left. exists b. split; [lia|assumption].
  - intros; apply (a_f _ _ _ HA); lia.
  - intros; apply (a_ff _ _ _ HA); lia.
  - assumption.
Qed.
End Raw.
