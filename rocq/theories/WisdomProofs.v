(** Wisdom file: crash points, completeness, and the failure cases. *)
From Coq Require Import Arith List Bool Ascii Lia.
From Verif Require Import WisdomModel.
Import ListNotations.

Lemma path_eqb_refl p : path_eqb p p = true.
Proof. unfold path_eqb. destruct (list_eq_dec ascii_dec p p); congruence. Qed.
Lemma path_eqb_neq p q : p <> q -> path_eqb p q = false.
Proof. intros H. unfold path_eqb. destruct (list_eq_dec ascii_dec p q); congruence. Qed.
Lemma fset_eq f p c : fset f p c p = c.
Proof. unfold fset. rewrite path_eqb_refl. reflexivity. Qed.
Lemma fset_neq f p q c : p <> q -> fset f p c q = f q.
Proof. intros H. unfold fset. rewrite path_eqb_neq by assumption. reflexivity. Qed.

(** files live in existing directories *)
Definition wf (fs : fsys) : Prop := forall p, files fs p <> None -> dirs fs (dir_of p) = true.

Definition touches (t : path) (o : fop) : Prop :=
  match o with OpenTrunc p => p = t | Append p _ => p = t | Close => True | Rename _ _ => False end.
Lemma untouched_name t name ops : t <> name -> Forall (touches t) ops -> forall s,
  files (fst (fold_left fstep ops s)) name = files (fst s) name.
Proof.
  intros Hne HF. induction HF as [|o ops Ho HF IH]; intros [fs ok]; [reflexivity|].
  cbn [fold_left]. rewrite IH. destruct o; cbn [touches] in Ho; subst; cbn [fstep]; try contradiction.
  - destruct (dirs fs (dir_of t)); cbn [fst files]; [apply fset_neq; assumption|reflexivity].
  - destruct ok; [|reflexivity]. destruct (files fs t); cbn [fst files]; [apply fset_neq; assumption|reflexivity].
  - reflexivity.
Qed.
Lemma appends t pieces : forall fs old, files fs t = Some old ->
  fold_left fstep (map (Append t) pieces) (fs, true) =
  (mkfs (match pieces with [] => files fs | _ => files (fst (fold_left fstep (map (Append t) pieces) (fs, true))) end) (dirs fs), true) /\
  files (fst (fold_left fstep (map (Append t) pieces) (fs, true))) t = Some (old ++ concat pieces).
Proof.
  induction pieces as [|c ps IH]; intros fs old H; cbn [map fold_left concat].
  - rewrite app_nil_r. split; [destruct fs; reflexivity|exact H].
  - cbn [fstep]. rewrite H. destruct (IH (mkfs (fset (files fs) t (Some (old ++ c))) (dirs fs)) (old ++ c)) as [A B]; [apply fset_eq|].
    cbn [dirs files] in A. split; [|rewrite B, app_assoc; reflexivity].
    rewrite A at 1. destruct ps; [|reflexivity]. reflexivity.
Qed.

Lemma full_run t name pieces fs : t <> name -> dirs fs (dir_of t) = true ->
  files (frun (save_ops t name pieces) fs) name = Some (concat pieces) /\ dirs (frun (save_ops t name pieces) fs) = dirs fs.
Proof.
  intros Hne Hd. unfold frun, save_ops. cbn [fold_left]. cbn [fstep]. rewrite Hd.
  rewrite fold_left_app.
  destruct (appends t pieces (mkfs (fset (files fs) t (Some [])) (dirs fs)) []) as [A B]; [apply fset_eq|].
  rewrite A in *. cbn [fst files] in B. cbn [fold_left fstep files]. rewrite B. cbn [fst files dirs app]. split; [apply fset_eq|reflexivity].
Qed.
Lemma closed_run t name pieces fs : wf fs -> dirs fs (dir_of t) = false -> files (frun (save_ops t name pieces) fs) = files fs.
Proof.
  intros Hw Hd. unfold frun, save_ops. cbn [fold_left]. cbn [fstep]. rewrite Hd.
  rewrite fold_left_app. assert (E : forall ps, fold_left fstep (map (Append t) ps) (fs, false) = (fs, false)) by (induction ps; [reflexivity|exact IHps]).
  rewrite E. cbn [fold_left fstep]. destruct (files fs t) eqn:F; [|reflexivity].
  assert (dirs fs (dir_of t) = true) by (apply Hw; congruence). congruence.
Qed.

Lemma crash_points t name pieces fs n : t <> name -> wf fs ->
  files (frun (firstn n (save_ops t name pieces)) fs) name = files fs name \/
  files (frun (firstn n (save_ops t name pieces)) fs) name = Some (concat pieces).
Proof.
  intros Hne Hw. destruct (Nat.le_gt_cases n (S (S (length pieces)))) as [L|L].
  - left. assert (E : firstn n (save_ops t name pieces) = firstn n (OpenTrunc t :: map (Append t) pieces ++ [Close])).
    { unfold save_ops. change (map (Append t) pieces ++ [Close; Rename t name]) with (map (Append t) pieces ++ [Close] ++ [Rename t name]).
      rewrite app_assoc, app_comm_cons, firstn_app. rewrite (proj2 (Nat.sub_0_le n _)).
      - rewrite app_nil_r. reflexivity.
      - cbn [length]. rewrite app_length, map_length. cbn [length]. lia. }
    rewrite E. unfold frun. rewrite (untouched_name t); [reflexivity|assumption|].
    assert (A : Forall (touches t) (OpenTrunc t :: map (Append t) pieces ++ [Close])).
    { constructor; [reflexivity|]. apply Forall_app. split; [|repeat constructor].
      apply Forall_forall. intros o Ho. apply in_map_iff in Ho as (c & <- & _). reflexivity. }
    revert A. generalize (OpenTrunc t :: map (Append t) pieces ++ [Close]). intros l A. apply Forall_forall. intros o Ho.
    eapply Forall_forall; [exact A|]. rewrite <- (firstn_skipn n l). apply in_or_app. left. exact Ho.
  - rewrite firstn_all2.
    + destruct (dirs fs (dir_of t)) eqn:D.
      * right. apply full_run; assumption.
      * left. rewrite closed_run by assumption. reflexivity.
    + unfold save_ops. cbn [length]. rewrite app_length, map_length. cbn [length]. lia.
Qed.

Section W.
Variables (name pid : path) (learn : entry -> content) (pieces : content -> list content).
Notation load := (loadWisdom name pid).
Notation step := (wstep name pid learn pieces).
Notation run := (wrun name pid learn pieces).

(** wisdomTemp is a sequence of copies of name_pid *)
Inductive copies : path -> Prop :=
| cp0 : copies []
| cpS t : copies t -> copies (t ++ name ++ [underscore] ++ pid).
Lemma copies_prepare s : copies (w_temp s) -> copies (w_temp (save_prepare name pid s)).
Proof. intros H. unfold save_prepare, recall, loadWisdom. cbn. destruct (w_epi s); cbn; constructor; exact H. Qed.
Lemma copies_load s : copies (w_temp s) -> copies (w_temp (load s)).
Proof. intros H. unfold loadWisdom. destruct (w_wise s); [exact H|]. cbn. constructor. exact H. Qed.
Lemma copies_step s e : copies (w_temp s) -> copies (w_temp (step s e)).
Proof.
  intros H. destruct e; cbn [wstep].
  - unfold Planner. destruct (existsb _ _); [apply copies_load; exact H|]. cbn. unfold recall. cbn. destruct (w_epi (load s)); cbn; apply copies_load; exact H.
  - unfold saveWisdom. destruct (w_wiser s); [|exact H]. unfold save_write. cbn [w_temp]. apply copies_prepare. exact H.
  - exact H.
Qed.
Lemma prepare_longer s : w_temp (save_prepare name pid s) <> name.
Proof.
  intros E. assert (length (w_temp (save_prepare name pid s)) > length name).
  { unfold save_prepare, recall, loadWisdom. cbn. destruct (w_epi s); cbn; rewrite !app_length; cbn [length]; lia. }
  rewrite E in H. lia.
Qed.

Definition sane (s : wstate) : Prop := wf (w_fs s) /\ dirs (w_fs s) (dir_of name) = true.
Lemma frun_dirs ops fs : dirs (frun ops fs) = dirs fs.
Proof.
  unfold frun. generalize false. revert fs. induction ops as [|o ops IH]; intros fs ok; [reflexivity|]. cbn [fold_left].
  destruct (fstep (fs, ok) o) as [fs' ok'] eqn:E. rewrite IH.
  destruct o; cbn [fstep] in E.
  - destruct (dirs fs (dir_of p)); injection E as <- <-; reflexivity.
  - destruct ok; [destruct (files fs p)|]; injection E as <- <-; reflexivity.
  - injection E as <- <-; reflexivity.
  - destruct (files fs p); injection E as <- <-; reflexivity.
Qed.
Lemma wf_set fs p c : wf fs -> dirs fs (dir_of p) = true -> wf (mkfs (fset (files fs) p (Some c)) (dirs fs)).
Proof.
  intros H Hd q Hq. cbn [files dirs] in *. unfold fset, path_eqb in Hq. destruct (list_eq_dec ascii_dec p q) as [<-|]; [assumption|auto].
Qed.
Lemma frun_wf ops fs : Forall (fun o => match o with Rename _ q => dirs fs (dir_of q) = true | _ => True end) ops -> wf fs -> wf (frun ops fs).
Proof.
  unfold frun. generalize false. revert fs. induction ops as [|o ops IH]; intros fs ok HF Hw; [exact Hw|]. cbn [fold_left].
  inversion HF as [|? ? Ho HF']; subst.
  destruct (fstep (fs, ok) o) as [fs' ok'] eqn:E.
  assert (ED : dirs fs' = dirs fs /\ wf fs').
  { destruct o; cbn [fstep] in E.
    - destruct (dirs fs (dir_of p)) eqn:D; injection E as <- <-; [|auto]. split; [reflexivity|]. apply wf_set; assumption.
    - destruct ok; [destruct (files fs p) eqn:G|]; injection E as <- <-; auto. split; [reflexivity|]. apply wf_set; [assumption|]. apply Hw. congruence.
    - injection E as <- <-. auto.
    - destruct (files fs p) eqn:G; injection E as <- <-; auto. split; [reflexivity|].
      intros r Hr. cbn [files dirs] in *. unfold fset, path_eqb in Hr. destruct (list_eq_dec ascii_dec q r) as [<-|]; [assumption|].
      destruct (list_eq_dec ascii_dec p r); [congruence|auto]. }
  destruct ED as [ED Hw']. apply IH; [|assumption]. rewrite ED. exact HF'.
Qed.
Lemma w_fs_recall s : w_fs (recall s) = w_fs s. Proof. unfold recall. destruct (w_epi s); reflexivity. Qed.
Lemma w_fs_load s : w_fs (load s) = w_fs s. Proof. unfold loadWisdom. destruct (w_wise s); reflexivity. Qed.
Lemma w_fs_prepare s : w_fs (save_prepare name pid s) = w_fs s.
Proof. unfold save_prepare. rewrite w_fs_recall, w_fs_load. reflexivity. Qed.
Lemma w_fs_planner p s : w_fs (Planner name pid learn p s) = w_fs s.
Proof. unfold Planner. destruct (existsb _ _); [apply w_fs_load|]. cbn. rewrite w_fs_recall. cbn. apply w_fs_load. Qed.

Lemma sane_step s e : sane s -> sane (step s e).
Proof.
  intros [Hw Hd]. destruct e; cbn [wstep]; unfold sane.
  - rewrite w_fs_planner. auto.
  - unfold saveWisdom. destruct (w_wiser s); [|auto]. unfold save_write. cbn [w_fs]. rewrite w_fs_prepare, frun_dirs. split; [|assumption].
    apply frun_wf; [|assumption]. unfold save_ops. constructor; [exact I|]. apply Forall_app. split.
    + apply Forall_forall. intros o Ho. apply in_map_iff in Ho as (c & <- & _). exact I.
    + constructor; [exact I|]. constructor; [assumption|constructor].
  - cbn [w_fs]. unfold add_entries. cbn [dirs]. split; [|assumption]. apply wf_set; assumption.
Qed.
Lemma sane_run h s : sane s -> sane (run h s).
Proof. revert s. induction h as [|e h IH]; intros s H; [exact H|]. cbn. apply IH, sane_step, H. Qed.

Lemma crash_thm fs h n ps : wf fs -> dirs fs (dir_of name) = true ->
  let s := save_prepare name pid (run h (wstart fs)) in
  concat ps = w_mem s ->
  let fs' := frun (firstn n (save_ops (w_temp s) name ps)) (w_fs s) in
  files fs' name = files (w_fs s) name \/ files fs' name = Some (w_mem s).
Proof.
  intros Hw Hd s Hps fs'. unfold fs'. rewrite <- Hps. apply crash_points; [apply prepare_longer|].
  unfold s. rewrite w_fs_prepare. apply (sane_run h (wstart fs)). split; assumption.
Qed.

(** *** nothing is lost *)
Hypothesis Hlearn : forall p, In p (learn p).
Hypothesis Hpieces : forall c, concat (pieces c) = c.
Hypothesis Hname : ~ In slash name.
Hypothesis Hpid : ~ In slash pid.

Lemma dir_flat p : ~ In slash p -> dir_of p = [].
Proof.
  induction p as [|c p IH]; intros H; [reflexivity|]. cbn [dir_of]. rewrite IH by (intros G; apply H; right; exact G).
  destruct (Ascii.eqb_spec c slash) as [->|]; [|reflexivity]. exfalso. apply H. left. reflexivity.
Qed.
Lemma copies_flat t : copies t -> ~ In slash t.
Proof.
  induction 1 as [|t Ht IH]; [intros []|]. intros H. apply in_app_or in H as [H|H]; [auto|].
  apply in_app_or in H as [H|H]; [auto|]. cbn [app] in H. destruct H as [H|H]; [discriminate|auto].
Qed.

Definition filec (s : wstate) : content := match files (w_fs s) name with Some c => c | None => [] end.
Definition epic (s : wstate) : content := match w_epi s with Some c => c | None => [] end.
Definition known (s : wstate) (e : entry) : Prop := In e (filec s) \/ In e (epic s).

Record Inv (fs0 : fsys) (h : list event) (s : wstate) : Prop := {
  I_dirs : dirs (w_fs s) = dirs fs0;
  I_temp : copies (w_temp s);
  I_wiser : w_wiser s = false -> w_epi s = None;
  I_mem : forall e, In e (w_mem s) -> known s e;
  I_plan : forall p, In (Plan p) h -> known s p;
  I_keep : forall e, In e (filec (wstart fs0)) \/ (exists c, In (Other c) h /\ In e c) -> In e (filec s);
  I_src : forall e, known s e \/ In e (w_mem s) ->
     In e (filec (wstart fs0)) \/ (exists c, In (Other c) h /\ In e c) \/ (exists p, In (Plan p) h /\ In e (learn p)) }.

Lemma load_known s : (w_wise s = false -> True) -> (forall e, In e (w_mem s) -> known s e) ->
  forall e, In e (w_mem (load s)) -> known s e.
Proof.
  intros _ H e He. unfold loadWisdom in He. destruct (w_wise s); [auto|]. cbn [w_mem] in He. apply in_app_or in He as [He|He]; [auto|]. left. exact He.
Qed.
Lemma epi_load s : w_epi (load s) = w_epi s. Proof. unfold loadWisdom. destruct (w_wise s); reflexivity. Qed.
Lemma wiser_load s : w_wiser (load s) = w_wiser s. Proof. unfold loadWisdom. destruct (w_wise s); reflexivity. Qed.

Lemma inv_step fs0 h s e : dirs fs0 [] = true -> Inv fs0 h s -> Inv fs0 (h ++ [e]) (step s e).
Proof.
  intros Hd [A B D E F G H].
  assert (HS : forall x, (In x (filec (wstart fs0)) \/ (exists c, In (Other c) h /\ In x c) \/ (exists p, In (Plan p) h /\ In x (learn p))) ->
     In x (filec (wstart fs0)) \/ (exists c, In (Other c) (h ++ [e]) /\ In x c) \/ (exists p, In (Plan p) (h ++ [e]) /\ In x (learn p))).
  { intros x [K|[(c & K1 & K2)|(p & K1 & K2)]]; [auto| |]; right; [left; exists c|right; exists p]; (split; [apply in_or_app; left|]); assumption. }
  destruct e as [p| |c]; cbn [wstep].
  - (* Plan *)
    assert (K0 : known (load s) = known s) by (unfold known, filec, epic; rewrite w_fs_load, epi_load; reflexivity).
    assert (KM : forall e, In e (w_mem (load s)) -> known s e) by (apply load_known; auto).
    assert (GK : forall s', w_fs s' = w_fs s -> forall x, In x (filec (wstart fs0)) \/ (exists c, In (Other c) (h ++ [Plan p]) /\ In x c) -> In x (filec s')).
    { intros s' Es x Hx. unfold filec at 1. rewrite Es. apply G. destruct Hx as [Hx|(c & H1 & H2)]; [auto|]. right. exists c. split; [|assumption].
      apply in_app_or in H1 as [H1|[H1|[]]]; [assumption|discriminate]. }
    unfold Planner. destruct (existsb (Nat.eqb p) (w_mem (load s))) eqn:EX.
    + split.
      * rewrite w_fs_load. exact A.
      * apply copies_load. exact B.
      * rewrite wiser_load, epi_load. exact D.
      * intros x Hx. rewrite K0. auto.
      * intros q Hq. rewrite K0. apply in_app_or in Hq as [Hq|[Hq|[]]]; [auto|]. injection Hq as <-.
        apply existsb_exists in EX as (y & Hy & Ey). apply Nat.eqb_eq in Ey. subst y. auto.
      * apply GK. apply w_fs_load.
      * intros x Hx. apply HS, H. left. rewrite K0 in Hx. destruct Hx as [Hx|Hx]; auto.
    + set (s1 := mkw _ _ _ _ _ (Some _)).
      assert (Es : w_fs s1 = w_fs s). { unfold s1. cbn [w_fs]. rewrite w_fs_recall. cbn. apply w_fs_load. }
      assert (Ee : epic s1 = learn p ++ epic s).
      { unfold s1, epic. cbn [w_epi]. unfold recall. cbn [w_epi w_mem]. rewrite epi_load. destruct (w_epi s); cbn [w_mem]; [reflexivity|rewrite app_nil_r; reflexivity]. }
      assert (Em : w_mem s1 = (learn p ++ epic s) ++ w_mem (load s)).
      { rewrite <- Ee. reflexivity. }
      assert (KN : forall x, known s x -> known s1 x).
      { intros x [Hx|Hx]; [left; unfold filec; rewrite Es; exact Hx|right; rewrite Ee; apply in_or_app; auto]. }
      assert (SRC : forall x, In x (learn p) -> In x (filec (wstart fs0)) \/ (exists c, In (Other c) (h ++ [Plan p]) /\ In x c) \/ (exists q, In (Plan q) (h ++ [Plan p]) /\ In x (learn q))).
      { intros x Hx. right. right. exists p. split; [apply in_or_app; right; left; reflexivity|assumption]. }
      split.
      * rewrite Es. exact A.
      * unfold s1. cbn [w_temp]. unfold recall. cbn. destruct (w_epi (load s)); cbn; apply copies_load; exact B.
      * discriminate.
      * intros x Hx. rewrite Em in Hx. apply in_app_or in Hx as [Hx|Hx]; [right; rewrite Ee; exact Hx|]. apply KN. auto.
      * intros q Hq. apply in_app_or in Hq as [Hq|[Hq|[]]]; [auto|]. injection Hq as <-. right. rewrite Ee. apply in_or_app. left. apply Hlearn.
      * apply GK. exact Es.
      * assert (SE : forall x, In x (learn p ++ epic s) -> In x (filec (wstart fs0)) \/ (exists c, In (Other c) (h ++ [Plan p]) /\ In x c) \/ (exists q, In (Plan q) (h ++ [Plan p]) /\ In x (learn q))).
        { intros x Hx. apply in_app_or in Hx as [Hx|Hx]; [auto|]. apply HS, H. left. right. exact Hx. }
        intros x [[Hx|Hx]|Hx].
        -- apply HS, H. left. left. unfold filec in *. rewrite Es in Hx. exact Hx.
        -- rewrite Ee in Hx. auto.
        -- rewrite Em in Hx. apply in_app_or in Hx as [Hx|Hx]; [auto|]. apply HS, H. left. auto.
  - (* Save *)
    assert (NP : forall p, In (Plan p) (h ++ [Save]) -> In (Plan p) h) by (intros p Hp; apply in_app_or in Hp as [Hp|[Hp|[]]]; [assumption|discriminate]).
    assert (NO : forall c, In (Other c) (h ++ [Save]) -> In (Other c) h) by (intros c Hp; apply in_app_or in Hp as [Hp|[Hp|[]]]; [assumption|discriminate]).
    assert (NO' : forall x, In x (filec (wstart fs0)) \/ (exists c, In (Other c) (h ++ [Save]) /\ In x c) -> In x (filec s)).
    { intros x [Hx|(c & H1 & H2)]; apply G; [auto|]. right. exists c. auto. }
    unfold saveWisdom. destruct (w_wiser s) eqn:EW.
    + set (s1 := save_prepare name pid s).
      assert (Em : w_mem s1 = filec s ++ epic s).
      { unfold s1, save_prepare, recall, loadWisdom, filec, epic. cbn. destruct (w_epi s); cbn; [reflexivity|rewrite app_nil_r; reflexivity]. }
      assert (Ep : w_epi s1 = None). { unfold s1, save_prepare, recall, loadWisdom. cbn. destruct (w_epi s) eqn:Q; cbn; reflexivity. }
      assert (Ef : w_fs s1 = w_fs s) by apply w_fs_prepare.
      assert (Et : copies (w_temp s1)) by (apply copies_prepare; exact B).
      destruct (full_run (w_temp s1) name (pieces (w_mem s1)) (w_fs s1)) as [R1 R2].
      { apply prepare_longer. } { rewrite (dir_flat _ (copies_flat _ Et)), Ef, A. exact Hd. }
      rewrite Hpieces in R1.
      assert (Efc : filec (save_write name pieces s1) = w_mem s1) by (unfold filec, save_write; cbn [w_fs]; rewrite R1; reflexivity).
      assert (Eec : epic (save_write name pieces s1) = []) by (unfold epic, save_write; cbn [w_epi]; rewrite Ep; reflexivity).
      assert (KN : forall x, known s x <-> In x (w_mem s1)) by (intros x; rewrite Em, in_app_iff; reflexivity).
      split.
      * unfold save_write. cbn [w_fs]. rewrite R2, Ef. exact A.
      * exact Et.
      * intros _. exact Ep.
      * intros x Hx. left. rewrite Efc. exact Hx.
      * intros p Hp. left. rewrite Efc. apply KN. auto.
      * intros x Hx. rewrite Efc. apply KN. left. auto.
      * intros x Hx. apply HS, H. left. apply KN. destruct Hx as [[Hx|Hx]|Hx]; [rewrite Efc in Hx; exact Hx|rewrite Eec in Hx; destruct Hx|exact Hx].
    + split; auto.
  - (* Other *)
    set (s1 := mkw _ _ _ _ _ _).
    assert (Ef : filec s1 = filec s ++ c).
    { unfold filec, s1, add_entries. cbn [w_fs files]. rewrite fset_eq. destruct (files (w_fs s) name); reflexivity. }
    assert (KN : forall x, known s x -> known s1 x).
    { intros x [Hx|Hx]; [left; rewrite Ef; apply in_or_app; auto|right; exact Hx]. }
    split.
    + exact A.
    + exact B.
    + exact D.
    + intros x Hx. apply KN. auto.
    + intros p Hp. apply KN. apply in_app_or in Hp as [Hp|[Hp|[]]]; [auto|discriminate].
    + intros x Hx. rewrite Ef. apply in_or_app. destruct Hx as [Hx|(c' & H1 & H2)]; [left; auto|].
      apply in_app_or in H1 as [H1|[H1|[]]]; [left; apply G; right; eauto|]. injection H1 as <-. auto.
    + intros x [[Hx|Hx]|Hx].
      * rewrite Ef in Hx. apply in_app_or in Hx as [Hx|Hx]; [apply HS, H; left; left; exact Hx|].
        right. left. exists c. split; [apply in_or_app; right; left; reflexivity|exact Hx].
      * apply HS, H. left. right. exact Hx.
      * apply HS, H. right. exact Hx.
Qed.
Lemma inv_run fs0 h : dirs fs0 [] = true -> Inv fs0 h (run h (wstart fs0)).
Proof.
  intros Hd. assert (G : forall h2 h1 s, Inv fs0 h1 s -> Inv fs0 (h1 ++ h2) (run h2 s)).
  { induction h2 as [|e h2 IH]; intros h1 s H; [rewrite app_nil_r; exact H|].
    cbn. replace (h1 ++ e :: h2) with ((h1 ++ [e]) ++ h2) by (rewrite <- app_assoc; reflexivity). apply IH, inv_step; assumption. }
  apply (G h [] (wstart fs0)). split.
  - reflexivity.
  - constructor.
  - reflexivity.
  - intros e [].
  - intros p [].
  - intros e [He|(c & [] & _)]. exact He.
  - intros e [[He|[]]|[]]. left. exact He.
Qed.
Lemma complete_thm fs0 h : dirs fs0 [] = true ->
  let file c := files (w_fs (run (h ++ [Save]) (wstart fs0))) name = Some c in
  let before := match files fs0 name with Some c => c | None => [] end in
  forall e,
    (In (Plan e) h \/ In e before \/ (exists c, In (Other c) h /\ In e c) -> exists c, file c /\ In e c) /\
    ((exists c, file c /\ In e c) ->
       In e before \/ (exists c, In (Other c) h /\ In e c) \/ (exists p, In (Plan p) h /\ In e (learn p))).
Proof.
  intros Hd file before e. pose proof (inv_run fs0 (h ++ [Save]) Hd) as [A B D E F G H].
  set (s := run (h ++ [Save]) (wstart fs0)) in *.
  assert (K : forall e, In e (filec s) <-> exists c, file c /\ In e c).
  { intros x. unfold filec, file. destruct (files (w_fs s) name) as [c|].
    - split; [intros Hx; exists c; auto|]. intros (c' & Ec & Hx). injection Ec as ->. exact Hx.
    - split; [intros []|intros (c' & Ec & _); discriminate]. }
  assert (Z : epic s = []).
  { unfold s, wrun. rewrite fold_left_app. cbn [fold_left wstep]. set (s0 := fold_left _ h _).
    unfold saveWisdom. destruct (w_wiser s0) eqn:W.
    - unfold epic, save_write. cbn [w_epi]. unfold save_prepare, recall, loadWisdom. cbn. destruct (w_epi s0) eqn:Q; cbn; reflexivity.
    - pose proof (I_wiser _ _ _ (inv_run fs0 h Hd)) as I. change (run h (wstart fs0)) with s0 in I. unfold epic. rewrite (I W). reflexivity. }
  assert (IO : forall c, In (Other c) (h ++ [Save]) -> In (Other c) h) by (intros c Hp; apply in_app_or in Hp as [Hp|[Hp|[]]]; [assumption|discriminate]).
  assert (IP : forall c, In (Plan c) (h ++ [Save]) -> In (Plan c) h) by (intros c Hp; apply in_app_or in Hp as [Hp|[Hp|[]]]; [assumption|discriminate]).
  split.
  - intros Hx. apply K. destruct Hx as [Hx|[Hx|(c & H1 & H2)]].
    + destruct (F e) as [Q|Q]; [apply in_or_app; auto|exact Q|rewrite Z in Q; destruct Q].
    + apply G. left. exact Hx.
    + apply G. right. exists c. split; [apply in_or_app; auto|exact H2].
  - intros Hx. apply K in Hx. destruct (H e (or_introl (or_introl Hx))) as [Q|[(c & Q1 & Q2)|(p & Q1 & Q2)]].
    + auto.
    + right. left. eauto.
    + right. right. eauto.
Qed.
End W.

(** *** failures *)
Lemma dir_app p q : dir_of q <> [] -> dir_of (p ++ q) = p ++ dir_of q.
Proof.
  intros H. induction p as [|c p IH]; [reflexivity|]. cbn [app dir_of]. rewrite IH.
  destruct (p ++ dir_of q) eqn:E; [|reflexivity]. apply app_eq_nil in E as [_ E]. contradiction.
Qed.
Lemma dir_app_flat p q : ~ In slash q -> dir_of (p ++ q) = dir_of p.
Proof.
  intros H. induction p as [|c p IH]; cbn [app dir_of]; [apply dir_flat; exact H|]. rewrite IH. reflexivity.
Qed.
Lemma directory_thm name pid learn pieces fs p : dir_of name <> [] -> ~ In slash pid -> wf fs ->
  dirs fs (name ++ [underscore] ++ pid ++ dir_of name) = false ->
  files (w_fs (wrun name pid learn pieces [Plan p; Save] (wstart fs))) = files fs.
Proof.
  intros Hn Hp Hw Hd. cbn [wrun fold_left wstep]. set (s := Planner name pid learn p (wstart fs)).
  assert (Ef : w_fs s = fs) by (unfold s; rewrite w_fs_planner; reflexivity).
  assert (Et : w_temp s = name ++ [underscore] ++ pid).
  { unfold s, Planner. destruct (existsb _ _); reflexivity. }
  unfold saveWisdom. destruct (w_wiser s); [|rewrite Ef; reflexivity].
  unfold save_write. cbn [w_fs]. rewrite w_fs_prepare, Ef. apply closed_run; [assumption|].
  assert (E : w_temp (save_prepare name pid s) = w_temp s ++ name ++ [underscore] ++ pid).
  { unfold save_prepare, recall, loadWisdom. cbn. destruct (w_epi s); reflexivity. }
  rewrite E, Et, dir_app.
  - rewrite (dir_app_flat name).
    + rewrite <- !app_assoc. exact Hd.
    + cbn [app]. intros [H|H]; [discriminate|auto].
  - rewrite dir_app_flat; [assumption|]. cbn [app]. intros [H|H]; [discriminate|auto].
Qed.

Lemma torn_thm name pid learn fs w1 w2 : wf fs -> ~ In slash name -> ~ In slash pid -> dirs fs [] = true -> files fs name = None ->
  learn 0 = [w1; w2] ->
  files (w_fs (wrun name pid learn (fun _ => [[w1]]) [Plan 0; Save] (wstart fs))) name = Some [w1].
Proof.
  intros Hw Hn Hp Hd Hf Hl. cbn [wrun fold_left wstep]. set (s := Planner name pid learn 0 (wstart fs)).
  assert (Ef : w_fs s = fs) by (unfold s; rewrite w_fs_planner; reflexivity).
  assert (Es : w_wiser s = true /\ copies name pid (w_temp s)).
  { unfold s, Planner. assert (E : w_mem (loadWisdom name pid (wstart fs)) = []) by (unfold loadWisdom, wstart; cbn; rewrite Hf; reflexivity).
    rewrite E. cbn [existsb]. split; [reflexivity|]. exact (cpS name pid [] (cp0 name pid)). }
  destruct Es as [E1 E2]. unfold saveWisdom. rewrite E1. unfold save_write. cbn [w_fs].
  apply full_run; [apply prepare_longer|].
  rewrite (dir_flat _ (copies_flat name pid Hn Hp _ (copies_prepare _ _ _ E2))), w_fs_prepare, Ef. exact Hd.
Qed.

Lemma lost_update_thm name pid learn pieces fs p c : wf fs -> ~ In slash name -> ~ In slash pid -> dirs fs [] = true ->
  (forall w, concat (pieces w) = w) -> files fs name = Some [] ->
  let s := save_prepare name pid (Planner name pid learn p (wstart fs)) in
  let s' := save_write name pieces (wstep name pid learn pieces s (Other c)) in
  files (w_fs s') name = Some (learn p).
Proof.
  intros Hw Hn Hp Hd Hpc Hf s s'. unfold s'. cbn [wstep]. unfold save_write. cbn [w_fs w_temp w_mem].
  assert (Em : w_mem s = learn p).
  { unfold s, save_prepare, Planner. assert (E : w_mem (loadWisdom name pid (wstart fs)) = []) by (unfold loadWisdom, wstart; cbn; rewrite Hf; reflexivity).
    rewrite E. cbn. unfold loadWisdom, wstart, recall. cbn. rewrite Hf. cbn. reflexivity. }
  assert (Et : copies name pid (w_temp s)).
  { unfold s. apply copies_prepare. unfold Planner. destruct (existsb _ _); exact (cpS name pid [] (cp0 name pid)). }
  destruct (full_run (w_temp s) name (pieces (w_mem s)) (add_entries name (w_fs s) c)) as [R1 _].
  - apply prepare_longer.
  - unfold add_entries. cbn [dirs]. rewrite (dir_flat _ (copies_flat name pid Hn Hp _ Et)). unfold s. rewrite w_fs_prepare, w_fs_planner. exact Hd.
  - rewrite R1, Hpc, Em. reflexivity.
Qed.
