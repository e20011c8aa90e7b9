(** Which arrays are left open: for every token sequence in which a closing bracket
    never directly follows a key, the number of arrays (and ignored arrays) that are
    open in the parser tree is at most the number of unclosed brackets. *)

From Verif Require Import Spec Model Infra Total Safe Depth Loose.
Local Open Scope string_scope.
Set Implicit Arguments.

(** *** Open arrays *)
Definition open_i (i : igst) : nat :=
  List.length (filter (fun x => match x with StArr => true | StObj => false end) (ig_st i)).

Fixpoint opened (p : parser) : nat :=
  match p with
  | PVal _ _ _ _ => 0
  | PArr _ sd _ _ e _ => (if sd then 1 else 0) + opened e
  | PMap _ _ _ _ e _ _ => opened e
  | PObj _ _ _ ms ig _ _ | PUni _ _ _ _ _ _ ms ig _ =>
      open_i ig + list_sum (map (fun mp => opened (snd mp)) ms)
  | PIgn i => open_i i
  end.

Definition sum_ms (ms : list (mspec * parser)) : nat := list_sum (map (fun mp => opened (snd mp)) ms).

Lemma sum_set_nth ms : forall n mp q, nth_error ms n = Some mp ->
  sum_ms (set_nth n (fst mp, q) ms) + opened (snd mp) = sum_ms ms + opened q.
Proof.
  unfold sum_ms. induction ms as [|x ms IH]; intros [|n] mp q H; simpl in *; try discriminate.
  - injection H as ->. lia.
  - specialize (IH n mp q H). lia.
Qed.

Lemma opened_set_child p st c q : child p st = Some c -> fits st q ->
  opened (set_child p st q) + opened c = opened p + opened q.
Proof.
  destruct p, st; simpl; intros H Hf; try discriminate.
  - injection H as <-. lia.
  - injection H as <-. lia.
  - destruct (nth_error ms n) as [mp|] eqn:Hn; [|discriminate]. injection H as <-.
    unfold set_mem. rewrite Hn. pose proof (sum_set_nth _ _ q Hn). unfold sum_ms in *. lia.
  - injection H as <-. destruct q; try tauto. simpl. lia.
  - destruct (nth_error ms n) as [mp|] eqn:Hn; [|discriminate]. injection H as <-.
    unfold set_mem. rewrite Hn. pose proof (sum_set_nth _ _ q Hn). unfold sum_ms in *. lia.
  - injection H as <-. destruct q; try tauto. simpl. lia.
Qed.

Lemma opened_put pi : forall T p q, get pi T = Some p -> same_kind p q ->
  opened (put pi q T) + opened p = opened T + opened q.
Proof.
  induction pi as [|st pi IH]; simpl; intros T p q H Hk.
  - injection H as ->. lia.
  - destruct (child T st) as [c|] eqn:Hc; [|discriminate].
    assert (Hf : fits st (put pi q c)) by (eapply fits_same_kind; eauto using put_kind).
    pose proof (opened_set_child _ _ _ Hc Hf). specialize (IH c p q H Hk). lia.
Qed.

Lemma opened_child T x c : child T x = Some c -> opened c <= opened T.
Proof.
  destruct T, x; simpl; intros Hc; try discriminate; try (injection Hc as <-; simpl; lia).
  - destruct (nth_error ms n) as [mp|] eqn:Hn; [|discriminate]. injection Hc as <-.
    pose proof (sum_set_nth _ _ (PVal base0 TyInt (VTup []) None) Hn) as K2.
    unfold sum_ms in *. simpl in *. lia.
  - destruct (nth_error ms n) as [mp|] eqn:Hn; [|discriminate]. injection Hc as <-.
    pose proof (sum_set_nth _ _ (PVal base0 TyInt (VTup []) None) Hn) as K2.
    unfold sum_ms in *. simpl in *. lia.
Qed.

Lemma opened_get pi : forall T p, get pi T = Some p -> opened p <= opened T.
Proof.
  induction pi as [|x pi IH]; simpl; intros T p Hg; [injection Hg as ->; auto|].
  destruct (child T x) as [c|] eqn:Hc; [|discriminate]. specialize (IH _ _ Hg).
  pose proof (opened_child _ _ Hc). lia.
Qed.

(** *** Elements of type Value have no dispatcher; unions have no array as a member *)
Definition free (p : parser) : Prop := match p with PVal b _ _ _ => b_disp b = None | _ => True end.
Definition not_arr (p : parser) : Prop := match p with PArr _ _ _ _ _ _ => False | _ => True end.

Fixpoint wf (p : parser) : Prop :=
  match p with
  | PVal _ _ _ _ | PIgn _ => True
  | PArr _ _ _ _ e _ => wf e /\ free e
  | PMap _ _ _ _ e _ _ => wf e
  | PObj _ _ _ ms _ _ _ =>
      (fix all (ms : list (mspec * parser)) : Prop :=
         match ms with [] => True | mp :: r => wf (snd mp) /\ all r end) ms
  | PUni _ _ _ _ _ _ ms _ _ =>
      (fix all (ms : list (mspec * parser)) : Prop :=
         match ms with [] => True | mp :: r => (wf (snd mp) /\ not_arr (snd mp)) /\ all r end) ms
  end.

Definition all_ms (Q : parser -> Prop) : list (mspec * parser) -> Prop :=
  fix all (ms : list (mspec * parser)) : Prop :=
    match ms with [] => True | mp :: r => Q (snd mp) /\ all r end.

Lemma all_nth (Q : parser -> Prop) ms n mp : all_ms Q ms -> nth_error ms n = Some mp -> Q (snd mp).
Proof.
  revert n; induction ms as [|x r IH]; intros [|n] H Hn; simpl in *; try discriminate.
  - injection Hn as ->. tauto.
  - eapply IH; eauto; tauto.
Qed.

Lemma all_set_nth (Q : parser -> Prop) ms n m q : all_ms Q ms -> Q q -> all_ms Q (set_nth n (m, q) ms).
Proof.
  revert n; induction ms as [|x r IH]; intros [|n] H Hq; simpl in *; auto; destruct H; split; auto.
Qed.

Lemma all_set_mem (Q : parser -> Prop) ms n q : all_ms Q ms -> Q q -> all_ms Q (set_mem n q ms).
Proof. intros H Hq. unfold set_mem. destruct (nth_error ms n); auto. apply all_set_nth; auto. Qed.

Lemma all_map (Q : parser -> Prop) f ms : (forall mp, In mp ms -> Q (snd mp) -> Q (f (snd mp))) -> all_ms Q ms ->
  all_ms Q (map (fun mp => (fst mp, f (snd mp))) ms).
Proof.
  induction ms as [|x r IH]; simpl; auto. intros Hf [H1 H2]. split; auto.
Qed.

Lemma wf_child p st c : wf p -> child p st = Some c -> wf c.
Proof.
  destruct p, st; simpl; intros H Hc; try discriminate; try (injection Hc as <-; simpl; tauto).
  - destruct (nth_error ms n) as [mp|] eqn:Hn; [|discriminate]. injection Hc as <-.
    apply (@all_nth wf _ _ _ H Hn).
  - destruct (nth_error ms n) as [mp|] eqn:Hn; [|discriminate]. injection Hc as <-.
    apply (@all_nth (fun p => wf p /\ not_arr p) _ _ _ H Hn).
Qed.

Lemma wf_get pi : forall p q, wf p -> get pi p = Some q -> wf q.
Proof.
  induction pi as [|st pi IH]; simpl; intros p q H Hg; [injection Hg as ->; auto|].
  destruct (child p st) as [c|] eqn:Hc; [|discriminate]. eauto using wf_child.
Qed.

(** What an update must keep. *)
Definition fine (p q : parser) : Prop := same_kind p q /\ disp_of q = disp_of p.

Lemma free_fine p q : fine p q -> free p -> free q.
Proof. intros [H1 H2]. destruct p, q; simpl in *; try tauto. unfold disp_of in H2. simpl in H2. congruence. Qed.

Lemma not_arr_fine p q : fine p q -> not_arr p -> not_arr q.
Proof. intros [H1 H2]. destruct p, q; simpl in *; tauto. Qed.

Lemma fine_set_child p st q : fine p (set_child p st q).
Proof. split; [apply set_child_kind|]. destruct p, st; reflexivity. Qed.

Lemma fine_put pi T p q : get pi T = Some p -> fine p q -> fine T (put pi q T).
Proof.
  destruct pi as [|st pi]; simpl; intros H Hf; [injection H as ->; auto|].
  destruct (child T st); [apply fine_set_child|discriminate].
Qed.

Lemma wf_put pi : forall T p q, get pi T = Some p -> wf T -> wf q -> fine p q -> wf (put pi q T).
Proof.
  induction pi as [|st pi IH]; simpl; intros T p q H HT Hq Hf; auto.
  destruct (child T st) as [c|] eqn:Hc; [|discriminate].
  pose proof (fine_put _ _ H Hf) as Hfc.
  assert (Hwc : wf (put pi q c)) by (eapply IH; eauto using wf_child).
  destruct T, st; simpl in *; try discriminate.
  - injection Hc as ->. split; auto. eapply free_fine; eauto. tauto.
  - auto.
  - apply (@all_set_mem wf); auto.
  - auto.
  - destruct (nth_error ms n) as [mp|] eqn:Hn; [|discriminate]. injection Hc as <-.
    apply (@all_set_mem (fun p => wf p /\ not_arr p)); auto. split; auto.
    eapply not_arr_fine; eauto. apply (@all_nth (fun p => wf p /\ not_arr p) _ _ _ HT Hn).
  - auto.
Qed.

(** *** Started arrays on the stack *)
Definition ats (T : parser) (pi : path) : Prop :=
  match get pi T with Some (PArr _ sd _ _ _ _) => sd = true | _ => True end.

(** No array is stopped. *)
Definition up (p q : parser) : Prop := forall rho, ats p rho -> ats q rho.

Lemma up_refl p : up p p.
Proof. red; auto. Qed.

Lemma up_trans p q r : up p q -> up q r -> up p r.
Proof. unfold up; auto. Qed.

Lemma up_intro p q : ats q [] \/ (ats p [] -> ats q []) ->
  (forall st d, child q st = Some d -> exists c, child p st = Some c /\ up c d) -> up p q.
Proof.
  intros H0 Hc rho H. destruct rho as [|st rho]; [destruct H0; auto|].
  unfold ats in *. simpl in *. destruct (child q st) as [d|] eqn:Hd; auto.
  destruct (Hc _ _ Hd) as (c & Hc' & Hu). rewrite Hc' in H. apply (Hu rho H).
Qed.

Lemma nth_set_nth_ne (ms : list (mspec * parser)) n m x : n <> m -> nth_error (set_nth n x ms) m = nth_error ms m.
Proof. intros. apply nth_error_set_nth_ne; auto. Qed.

Lemma child_set_child_ne p st st' q : st <> st' -> child (set_child p st q) st' = child p st'.
Proof.
  destruct p, st, st'; simpl; auto; intros H; try congruence.
  - unfold set_mem. destruct (nth_error ms n); auto. rewrite nth_set_nth_ne; auto.
  - unfold set_mem. destruct (nth_error ms n); auto. rewrite nth_set_nth_ne; auto.
Qed.

Lemma step_dec (x y : step) : {x = y} + {x <> y}.
Proof. decide equality. apply Nat.eq_dec. Qed.

Lemma up_set_child p st c q : child p st = Some c -> fits st q -> up c q -> up p (set_child p st q).
Proof.
  intros Hc Hf Hu. apply up_intro.
  - right. destruct p, st; simpl; auto.
  - intros st' d Hd. destruct (step_dec st st') as [<-|Hn].
    + erewrite child_set_child_eq in Hd by eauto. injection Hd as <-. eauto.
    + rewrite child_set_child_ne in Hd by auto. eauto using up_refl.
Qed.

Lemma up_put pi : forall T p q, get pi T = Some p -> same_kind p q -> up p q -> up T (put pi q T).
Proof.
  induction pi as [|st pi IH]; simpl; intros T p q H Hk Hu; [injection H as ->; auto|].
  destruct (child T st) as [c|] eqn:Hc; [|discriminate].
  eapply up_set_child; eauto. eapply fits_same_kind; eauto using put_kind.
Qed.

(** Updating a parser does not stop the arrays around it. *)
Lemma ats_put_below rho n rel T p q : get (rho ++ n :: rel)%list T = Some p -> same_kind p q ->
  ats T rho -> ats (put (rho ++ n :: rel)%list q T) rho.
Proof.
  intros H Hk Ha. rewrite get_app in H. destruct (get rho T) as [r|] eqn:Hr; [|discriminate].
  rewrite (put_app _ _ _ _ Hr). unfold ats in *. rewrite Hr in Ha.
  assert (Hf : put (n :: rel) q r = set_child r n (match child r n with Some c => put rel q c | None => q end)).
  { simpl in *. destruct (child r n); [auto|discriminate]. }
  rewrite Hf. erewrite get_put_same; eauto using set_child_kind.
  destruct r, n; simpl in *; auto.
Qed.

(** *** Updates that keep everything *)
Record mild (p q : parser) : Prop := {
  mi_fine : fine p q;
  mi_open : opened q <= opened p;
  mi_wf : wf p -> wf q;
  mi_up : up p q
}.

Lemma fine_trans p q r : fine p q -> fine q r -> fine p r.
Proof. intros [H1 H2] [H3 H4]. split; [eapply same_kind_trans; eauto|congruence]. Qed.

Lemma mild_refl p : mild p p.
Proof. split; auto using up_refl. split; auto using same_kind_refl. Qed.

Lemma mild_trans p q r : mild p q -> mild q r -> mild p r.
Proof.
  intros [A1 A2 A3 A4] [B1 B2 B3 B4]. split; [eapply fine_trans; eauto|lia|auto|eapply up_trans; eauto].
Qed.

Lemma mild_put pi T p q : get pi T = Some p -> mild p q -> mild T (put pi q T).
Proof.
  intros H [A1 A2 A3 A4]. split.
  - eapply fine_put; eauto.
  - destruct A1 as [K _]. pose proof (opened_put _ _ _ H K). lia.
  - intros HT. eapply wf_put; eauto. apply A3. eapply wf_get; eauto.
  - destruct A1. eapply up_put; eauto.
Qed.

Lemma mild_with_base p b : b_disp b = disp_of p -> mild p (with_base p b).
Proof.
  intros Hb. split.
  - split; [destruct p; simpl; auto|destruct p; auto].
  - destruct p; simpl; auto.
  - destruct p; simpl; auto.
  - apply up_intro; [right; destruct p; auto|]. intros st d Hd.
    destruct p, st; simpl in *; try discriminate; eauto using up_refl.
Qed.

Lemma mild_set_set x p : mild p (set_set x p).
Proof. apply mild_with_base. destruct p; reflexivity. Qed.

Lemma mild_not_empty p : mild p (set_not_empty p).
Proof. apply mild_with_base. destruct p; reflexivity. Qed.

Lemma up_leaf p i : up p (PIgn i).
Proof. intros [|st rho] _; exact I. Qed.

Lemma mild_reset p : mild p (reset p).
Proof.
  induction p as [b t v cb|b sd st vals e cb IH|b st key vals e ecb cb IH|b k v ms ig ign cb IH|b st v t tm cur ms ig cb IH|i]
    using parser_ind'.
  - apply (@mild_with_base (PVal b t v cb) (reset_base b)). reflexivity.
  - destruct IH as [A1 A2 A3 A4]. split.
    + split; simpl; auto.
    + simpl. lia.
    + simpl. intros [H1 H2]. split; auto. eapply free_fine; eauto.
    + apply up_intro; [right; auto|]. intros [] d Hd; simpl in Hd; try discriminate.
      injection Hd as <-. eexists; split; [reflexivity|auto].
  - split; [split; simpl; auto|simpl; auto|simpl; auto|].
    apply up_intro; [right; auto|]. intros [] d Hd; simpl in Hd; try discriminate.
    injection Hd as <-. eexists; split; [reflexivity|apply up_refl].
  - assert (Hsum : sum_ms (map (fun mp => (fst mp, reset (snd mp))) ms) <= sum_ms ms).
    { unfold sum_ms. induction IH as [|mp r H _ IHr]; simpl; auto. pose proof (mi_open H). lia. }
    split.
    + split; simpl; auto.
    + simpl. unfold sum_ms in Hsum. unfold open_i. simpl. lia.
    + simpl. intros H. apply (@all_map wf); auto. intros mp Hin. rewrite Forall_forall in IH.
      apply (mi_wf (IH _ Hin)).
    + apply up_intro; [right; auto|]. intros [|n|] d Hd; simpl in Hd; try discriminate.
      * rewrite nth_error_map in Hd. simpl. destruct (nth_error ms n) as [mp|] eqn:Hn; [|discriminate].
        injection Hd as <-. simpl. eexists; split; [reflexivity|]. apply nth_error_In in Hn.
        rewrite Forall_forall in IH. apply (mi_up (IH _ Hn)).
      * injection Hd as <-. eexists; split; [reflexivity|apply up_leaf].
  - assert (Hsum : sum_ms (map (fun mp => (fst mp, reset (snd mp))) ms) <= sum_ms ms).
    { unfold sum_ms. induction IH as [|mp r H _ IHr]; simpl; auto. pose proof (mi_open H). lia. }
    split.
    + split; simpl; auto.
    + simpl. unfold sum_ms in Hsum. unfold open_i. simpl. lia.
    + simpl. intros H. apply (@all_map (fun p => wf p /\ not_arr p)); auto.
      intros mp Hin [K1 K2]. rewrite Forall_forall in IH. destruct (IH _ Hin) as [B1 B2 B3 B4].
      split; auto. eapply not_arr_fine; eauto.
    + apply up_intro; [right; auto|]. intros [|n|] d Hd; simpl in Hd; try discriminate.
      * rewrite nth_error_map in Hd. simpl. destruct (nth_error ms n) as [mp|] eqn:Hn; [|discriminate].
        injection Hd as <-. simpl. eexists; split; [reflexivity|]. apply nth_error_In in Hn.
        rewrite Forall_forall in IH. apply (mi_up (IH _ Hn)).
      * injection Hd as <-. eexists; split; [reflexivity|apply up_leaf].
  - split; [split; simpl; auto|simpl; apply Nat.le_0_l|auto|apply up_leaf].
Qed.

Lemma mild_unset_at p rel : mild p (unset_at p rel).
Proof.
  unfold unset_at. destruct (get rel p) as [q|] eqn:Hg; [|apply mild_refl].
  destruct (stored q); [|apply mild_refl]. eapply mild_put; eauto using mild_set_set.
Qed.

Lemma mild_pops rels : forall p, mild p (apply_pops rels p).
Proof.
  unfold apply_pops. induction rels as [|r rels IH]; simpl; intros p; [apply mild_refl|].
  eapply mild_trans; [apply mild_unset_at|apply IH].
Qed.

Lemma mild_pop_value p v q : pop_value p = Some (v, q) -> mild p q.
Proof.
  unfold pop_value. destruct (get_value p); [|discriminate]. intros H; injection H as <- <-. apply mild_set_set.
Qed.

(** Members exchanged one by one. *)
Inductive mild_ms : list (mspec * parser) -> list (mspec * parser) -> Prop :=
| mm_nil : mild_ms [] []
| mm_cons m p q r r' : mild p q -> mild_ms r r' -> mild_ms ((m, p) :: r) ((m, q) :: r').

Lemma mild_ms_refl ms : mild_ms ms ms.
Proof. induction ms as [|[m p] r IH]; constructor; auto using mild_refl. Qed.

Lemma mild_ms_nth ms ms' n mp' : mild_ms ms ms' -> nth_error ms' n = Some mp' ->
  exists mp, nth_error ms n = Some mp /\ mild (snd mp) (snd mp').
Proof.
  intros H. revert n. induction H as [|m p q r r' Hm _ IH]; intros [|n] Hn; simpl in *; try discriminate.
  - injection Hn as <-. eauto.
  - auto.
Qed.

Lemma mild_ms_sum ms ms' : mild_ms ms ms' -> sum_ms ms' <= sum_ms ms.
Proof. unfold sum_ms. induction 1 as [|m p q r r' Hm _ IH]; simpl; auto. pose proof (mi_open Hm). lia. Qed.

Lemma mild_ms_all (Q : parser -> Prop) ms ms' : (forall p q, mild p q -> Q p -> Q q) -> mild_ms ms ms' -> all_ms Q ms -> all_ms Q ms'.
Proof. intros HQ. induction 1 as [|m p q r r' Hm _ IH]; simpl; auto. intros [H1 H2]. split; eauto. Qed.

Lemma mild_obj b k v v' ms ms' ig ign cb : mild_ms ms ms' ->
  mild (PObj b k v ms ig ign cb) (PObj b k v' ms' ig ign cb).
Proof.
  intros H. split.
  - split; simpl; auto.
  - simpl. pose proof (mild_ms_sum H). unfold sum_ms in *. lia.
  - simpl. apply (@mild_ms_all wf); auto. intros p q Hm. apply (mi_wf Hm).
  - apply up_intro; [right; auto|]. intros [|n|] d Hd; simpl in Hd; try discriminate.
    + destruct (nth_error ms' n) as [mp|] eqn:Hn; [|discriminate]. injection Hd as <-.
      destruct (mild_ms_nth _ H Hn) as (mp0 & Hn0 & Hm). simpl. rewrite Hn0. eexists; split; [reflexivity|].
      apply (mi_up Hm).
    + injection Hd as <-. eexists; split; [reflexivity|apply up_leaf].
Qed.

Lemma mild_uni b st v v' t tm c c' ms ms' ig cb : mild_ms ms ms' ->
  mild (PUni b st v t tm c ms ig cb) (PUni b st v' t tm c' ms' ig cb).
Proof.
  intros H. split.
  - split; simpl; auto.
  - simpl. pose proof (mild_ms_sum H). unfold sum_ms in *. lia.
  - simpl. apply (@mild_ms_all (fun p => wf p /\ not_arr p)); auto. intros p q Hm [K1 K2].
    split; [apply (mi_wf Hm); auto|]. eapply not_arr_fine; eauto. apply (mi_fine Hm).
  - apply up_intro; [right; auto|]. intros [|n|] d Hd; simpl in Hd; try discriminate.
    + destruct (nth_error ms' n) as [mp|] eqn:Hn; [|discriminate]. injection Hd as <-.
      destruct (mild_ms_nth _ H Hn) as (mp0 & Hn0 & Hm). simpl. rewrite Hn0. eexists; split; [reflexivity|].
      apply (mi_up Hm).
    + injection Hd as <-. eexists; split; [reflexivity|apply up_leaf].
Qed.

Lemma mild_arr b sd st v v' e e' cb : mild e e' -> mild (PArr b sd st v e cb) (PArr b sd st v' e' cb).
Proof.
  intros [A1 A2 A3 A4]. split; [split; simpl; auto|simpl; lia| |].
  - simpl. intros [H1 H2]. split; auto. eapply free_fine; eauto.
  - apply up_intro; [right; auto|]. intros [] d Hd; simpl in Hd; try discriminate.
    injection Hd as <-. eexists; split; [reflexivity|auto].
Qed.

Lemma mild_map b st k k' v v' e e' ecb cb : mild e e' -> mild (PMap b st k v e ecb cb) (PMap b st k' v' e' ecb cb).
Proof.
  intros [A1 A2 A3 A4]. split; [split; simpl; auto|simpl; lia|simpl; auto|].
  apply up_intro; [right; auto|]. intros [] d Hd; simpl in Hd; try discriminate.
  injection Hd as <-. eexists; split; [reflexivity|auto].
Qed.

Lemma mild_set_values E ms : forall ms' r, set_values E ms = (ms', r) -> mild_ms ms ms'.
Proof.
  induction ms as [|[m p] ms IH]; simpl; intros ms' r H; [injection H as <- <-; constructor|].
  destruct (set_values E ms) as [r' x] eqn:Hs. specialize (IH _ _ eq_refl).
  destruct x as [e|vs].
  - injection H as <- <-. constructor; auto using mild_refl.
  - destruct (is_set p).
    + destruct (pop_value p) as [[v p']|] eqn:Hp; [destruct (e_store E v)|]; injection H as <- <-;
        constructor; auto using mild_refl; eapply mild_pop_value; eauto.
    + destruct (m_opt m); [destruct (m_def m) as [d|]; [destruct (e_store E d)|]|]; injection H as <- <-; constructor; auto using mild_refl.
Qed.

Lemma mild_set_mem ms n mp q : nth_error ms n = Some mp -> mild (snd mp) q -> mild_ms ms (set_mem n q ms).
Proof.
  intros H Hm. unfold set_mem. rewrite H. revert n H. induction ms as [|[m p] ms IH]; intros [|n] H; simpl in *; try discriminate.
  - injection H as <-. constructor; auto using mild_ms_refl.
  - constructor; auto using mild_refl.
Qed.

Lemma mild_uni_set_value E cur ms : forall ms' r, uni_set_value E cur ms = (ms', r) -> mild_ms ms ms'.
Proof.
  unfold uni_set_value. intros ms' r H. destruct (nth_error ms cur) as [[m p]|] eqn:Hn;
    [|injection H as <- <-; apply mild_ms_refl].
  destruct (is_set p).
  - destruct (pop_value p) as [[v p']|] eqn:Hp; injection H as <- <-; auto using mild_ms_refl.
    eapply mild_set_mem; eauto. eapply mild_pop_value; eauto.
  - destruct (m_opt m); [destruct (m_def m)|]; injection H as <- <-; apply mild_ms_refl.
Qed.

Lemma opened_set_disp d p : opened (set_disp d p) = opened p.
Proof.
  induction p as [b t v cb|b sd st vals e cb IH|b st key vals e ecb cb IH|b k v ms ig ign cb IH|b st v t tm cur ms ig cb IH|i]
    using parser_ind'; simpl; auto.
  - f_equal. rewrite map_map. simpl. induction IH as [|mp r H _ IHr]; simpl; auto.
  - f_equal. rewrite map_map. simpl. induction IH as [|mp r H _ IHr]; simpl; auto.
Qed.

Lemma not_arr_set_disp d p : not_arr p -> not_arr (set_disp d p).
Proof. destruct p; simpl; auto. Qed.

Lemma wf_set_disp d p : wf p -> wf (set_disp d p).
Proof.
  induction p as [b t v cb|b sd st vals e cb IH|b st key vals e ecb cb IH|b k v ms ig ign cb IH|b st v t tm cur ms ig cb IH|i]
    using parser_ind'; simpl; auto.
  - intros H. apply (@all_map wf); auto. intros mp Hin. rewrite Forall_forall in IH. apply (IH _ Hin).
  - intros H. apply (@all_map (fun p => wf p /\ not_arr p)); auto. intros mp Hin [K1 K2].
    rewrite Forall_forall in IH. split; [apply (IH _ Hin); auto|apply not_arr_set_disp; auto].
Qed.

Lemma up_set_disp d p : up p (set_disp d p).
Proof.
  induction p as [b t v cb|b sd st vals e cb IH|b st key vals e ecb cb IH|b k v ms ig ign cb IH|b st v t tm cur ms ig cb IH|i]
    using parser_ind'.
  - apply up_intro; [right; auto|]. intros [] x Hx; discriminate.
  - apply up_intro; [right; auto|]. intros [] x Hx; simpl in Hx; try discriminate.
    injection Hx as <-. eexists; split; [reflexivity|apply up_refl].
  - apply up_intro; [right; auto|]. intros [] x Hx; simpl in Hx; try discriminate.
    injection Hx as <-. eexists; split; [reflexivity|auto].
  - apply up_intro; [right; auto|]. intros [|n|] x Hx; simpl in Hx; try discriminate.
    + rewrite nth_error_map in Hx. simpl. destruct (nth_error ms n) as [mp|] eqn:Hn; [|discriminate].
      injection Hx as <-. simpl. eexists; split; [reflexivity|]. apply nth_error_In in Hn.
      rewrite Forall_forall in IH. apply (IH _ Hn).
    + injection Hx as <-. eexists; split; [reflexivity|apply up_leaf].
  - apply up_intro; [right; auto|]. intros [|n|] x Hx; simpl in Hx; try discriminate.
    + rewrite nth_error_map in Hx. simpl. destruct (nth_error ms n) as [mp|] eqn:Hn; [|discriminate].
      injection Hx as <-. simpl. eexists; split; [reflexivity|]. apply nth_error_In in Hn.
      rewrite Forall_forall in IH. apply (IH _ Hn).
    + injection Hx as <-. eexists; split; [reflexivity|apply up_leaf].
  - apply up_leaf.
Qed.

Definition is_val (p : parser) : bool := match p with PVal _ _ _ _ => true | _ => false end.

Lemma mild_enter b sd st vals e cb d : is_val e = false ->
  mild (PArr b sd st vals e cb) (set_not_empty (PArr b sd st vals (set_disp d e) cb)).
Proof.
  intros He. eapply mild_trans; [|apply mild_not_empty]. split.
  - split; simpl; auto.
  - simpl. rewrite opened_set_disp. lia.
  - simpl. intros [H1 H2]. split; [apply wf_set_disp; auto|]. destruct e; simpl in *; auto. discriminate.
  - apply up_intro; [right; auto|]. intros [] x Hx; simpl in Hx; try discriminate.
    injection Hx as <-. eexists; split; [reflexivity|apply up_set_disp].
Qed.

(** *** The invariant *)
Definition top_ok (s : mstate) : Prop :=
  match m_stack s with [] => True | top :: _ => ats (m_root s) top end.

Record A (n : nat) (s : mstate) : Prop := {
  A_open : opened (m_root s) <= n;
  A_wf : wf (m_root s);
  A_nest : nested (m_stack s);
  A_low : Forall (ats (m_root s)) (tl (m_stack s))
}.

Definition pushed (pi : path) (s : mstate) : Prop :=
  (exists r, m_stack s = pi :: r) /\ exists p, get pi (m_root s) = Some p /\ disp_of p <> None.

Definition may (pi : path) (s : mstate) : Prop := top_ok s \/ pushed pi s.

Definition is_key (t : token) : bool := match t with TKey _ => true | _ => false end.
Definition is_open (t : token) : nat := match t with TArrStart => 1 | _ => 0 end.

Definition apre (n : nat) (c : call) (s : mstate) : Prop :=
  A n s /\
  match c with
  | CPop => True
  | CChild _ => top_ok s
  | CDisp t => (top_ok s \/ exists pi, pushed pi s) /\ (t = TArrEnd -> exists pi, pushed pi s)
  | COn pi t => may pi s /\ under pi (m_stack s) /\ (t = TArrEnd -> pushed pi s)
  | CEnd pi => may pi s
  end.

Definition call_open (c : call) : nat := match c with COn _ t | CDisp t => is_open t | _ => 0 end.
Definition call_key (c : call) : bool := match c with COn _ t | CDisp t => is_key t | _ => false end.

Definition apost (n : nat) (o : nat) (k : bool) (r : res) : Prop :=
  match r with
  | ROk s => A (n + o) s /\ (k = true \/ top_ok s)
  | RThrow _ s => opened (m_root s) <= n /\ (wf (m_root s) \/ 1 <= opened (m_root s))
  | _ => True
  end.

Lemma A_mono n n' s : A n s -> n <= n' -> A n' s.
Proof. intros [H1 H2 H3 H4] Hn. split; auto. lia. Qed.

(** A mild change of the tree. *)
Definition eased (s s' : mstate) : Prop := mild (m_root s) (m_root s') /\ m_stack s' = m_stack s.

Lemma eased_A n s s' : A n s -> eased s s' -> A n s'.
Proof.
  intros [H1 H2 H3 H4] [[K1 K2 K3 K4] Hs]. split; rewrite ?Hs; auto; [lia|].
  eapply Forall_impl; [|exact H4]. intros a. apply K4.
Qed.

Lemma eased_top s s' : top_ok s -> eased s s' -> top_ok s'.
Proof. unfold top_ok. intros H [[K1 K2 K3 K4] Hs]. rewrite Hs. destruct (m_stack s); auto. Qed.

Lemma eased_upd s pi p q : get pi (m_root s) = Some p -> mild p q -> eased s (upd s pi q).
Proof. intros H Hm. split; auto. simpl. eapply mild_put; eauto. Qed.

Lemma eased_pushed s pi p q : get pi (m_root s) = Some p -> mild p q -> pushed pi s -> pushed pi (upd s pi q).
Proof.
  intros Hg Hm [[r Hr] (p0 & Hg0 & Hd)]. split; [exists r; auto|]. rewrite Hg in Hg0. injection Hg0 as <-.
  destruct (mi_fine Hm) as [K1 K2]. exists q. split; [simpl; eapply get_put_same; eauto|congruence].
Qed.

Lemma eased_may s pi p q : get pi (m_root s) = Some p -> mild p q -> may pi s -> may pi (upd s pi q).
Proof.
  intros Hg Hm [H|H]; [left|right].
  - eapply eased_top; eauto using eased_upd.
  - eapply eased_pushed; eauto.
Qed.

Lemma may_top s pi p : get pi (m_root s) = Some p -> may pi s ->
  match p with PArr _ sd _ _ _ _ => sd = true | _ => True end -> top_ok s.
Proof.
  intros Hg [H|[[r Hr] (p0 & Hg0 & Hd)]] Hp; auto. unfold top_ok. rewrite Hr. unfold ats. rewrite Hg. auto.
Qed.

Lemma A_push n s pi : A n s -> top_ok s -> nested (pi :: m_stack s) -> A n (push s pi).
Proof.
  intros [H1 H2 H3 H4] Ht Hn. split; auto. simpl. unfold top_ok in Ht.
  destruct (m_stack s) as [|top r]; constructor; auto.
Qed.

Lemma apost_throw n o k e s : A n s -> apost n o k (RThrow e s).
Proof. intros [H1 H2 H3 H4]. simpl. auto. Qed.

Lemma apost_bind n o o' k k' r f : apost n o' k' r ->
  (forall s, A (n + o') s -> (k' = true \/ top_ok s) -> apost n o k (f s)) -> apost n o k (bind r f).
Proof. destruct r; simpl; auto. intros [H1 H2] Hf. auto. Qed.

Lemma apost_deref n o k g d r : (d <> None -> apost n o k r) -> apost n o k (deref g d r).
Proof. unfold deref. destruct d as [x|]; simpl; auto. destruct (Nat.eqb x g); simpl; auto. intros H. apply H. discriminate. Qed.

Lemma nested_low x st : nested (x :: st) -> Forall (fun y => exists n rel, x = (y ++ n :: rel)%list) st.
Proof.
  revert x. induction st as [|y st IH]; intros x H; constructor.
  - apply H.
  - destruct H as [(n & rel & ->) H]. eapply Forall_impl; [|apply (IH y H)].
    intros z (n' & rel' & ->). exists n', (rel' ++ n :: rel)%list. rewrite <- app_assoc. reflexivity.
Qed.

(** The end of an array. *)
Lemma arr_end n s pi b sd st vals e cb : A n s -> pushed pi s ->
  get pi (m_root s) = Some (PArr b sd st vals e cb) ->
  let s' := upd s pi (PArr b false st vals e cb) in
  A (n - (if sd then 1 else 0)) s' /\ pushed pi s'.
Proof.
  intros [H1 H2 H3 H4] [[r Hr] (p0 & Hg0 & Hd)] Hg s'. rewrite Hg in Hg0. injection Hg0 as <-.
  assert (Hk : same_kind (PArr b sd st vals e cb) (PArr b false st vals e cb)) by exact I.
  split.
  - split; simpl.
    + pose proof (opened_put _ _ _ Hg Hk) as K. simpl in K. destruct sd; lia.
    + pose proof (wf_get _ _ H2 Hg) as K. eapply wf_put; eauto. split; auto.
    + auto.
    + rewrite Hr in *. simpl in *. rewrite Forall_forall in *. intros y Hy.
      pose proof (@nested_low pi r H3) as K. rewrite Forall_forall in K. destruct (K y Hy) as (m & rel & ->).
      eapply ats_put_below; eauto.
  - split; [exists r; auto|]. eexists. split; [simpl; eapply get_put_same; eauto|exact Hd].
Qed.

(** *** Callbacks and finish() *)
Section Exec.
Variable E : env.
Variable g : nat.

(** The parser at [pi] changes, and others may become unset. *)
Definition only (pi : path) (p : parser) (s : mstate) (r : res) : Prop :=
  match r with
  | ROk s' | RThrow _ s' =>
      m_stack s' = m_stack s /\ mild (m_root s) (m_root s') /\ exists q, get pi (m_root s') = Some q /\ mild p q
  | _ => True
  end.

Lemma only_put pi p q s s' : get pi (m_root s) = Some p -> m_stack s' = m_stack s -> mild p q ->
  m_root s' = put pi q (m_root s) ->
  m_stack s' = m_stack s /\ mild (m_root s) (m_root s') /\ exists q, get pi (m_root s') = Some q /\ mild p q.
Proof.
  intros Hg H1 H2 H3. split; auto. split; [rewrite H3; eapply mild_put; eauto|]. exists q. split; auto. rewrite H3.
  eapply get_put_same; eauto. apply (mi_fine H2).
Qed.

Lemma only_same pi p s s' : get pi (m_root s) = Some p -> m_stack s' = m_stack s -> m_root s' = m_root s ->
  m_stack s' = m_stack s /\ mild (m_root s) (m_root s') /\ exists q, get pi (m_root s') = Some q /\ mild p q.
Proof. intros Hg H1 H2. split; auto. rewrite H2. split; [apply mild_refl|]. exists p. split; [auto|apply mild_refl]. Qed.

Lemma mild_pops_at rels : forall T pi p, get pi T = Some p ->
  exists q, get pi (apply_pops rels T) = Some q /\ mild p q.
Proof.
  unfold apply_pops. induction rels as [|r rels IH]; simpl; intros T pi p Hg; [exists p; split; auto using mild_refl|].
  destruct (@get_unset_at pi r T p Hg) as (q & Hq & Hc).
  destruct (IH _ _ _ Hq) as (q' & H1 & H2). exists q'. split; auto. eapply mild_trans; [|exact H2].
  destruct Hc as [->|[rel ->]]; [apply mild_refl|apply mild_unset_at].
Qed.

Lemma only_run_cb pi p s c a eff msg : get pi (m_root s) = Some p ->
  (forall o s0, m_root s0 = m_root s -> m_stack s0 = m_stack s ->
     m_stack (eff o s0) = m_stack s /\ exists q, mild p q /\ m_root (eff o s0) = put pi q (m_root s)) ->
  only pi p s (run_cb E c a eff msg s).
Proof.
  intros Hg He. unfold run_cb. destruct c as [c|]; simpl.
  - set (o := e_cb E c (m_log s) (m_root s) a). set (s0 := add_log s _).
    destruct (He o s0 eq_refl eq_refl) as [H1 (q & H2 & H3)].
    destruct (@only_put pi p q s (eff o s0) Hg H1 H2 H3) as (_ & K1 & q1 & K2 & K3).
    assert (R : m_stack (away (co_away o) (eff o s0)) = m_stack s /\
                mild (m_root s) (m_root (away (co_away o) (eff o s0))) /\
                exists q, get pi (m_root (away (co_away o) (eff o s0))) = Some q /\ mild p q).
    { rewrite away_stack, away_root. split; auto. split; [eapply mild_trans; [exact K1|apply mild_pops]|].
      destruct (mild_pops_at (co_away o) _ _ K2) as (q2 & L1 & L2). exists q2. split; auto. eapply mild_trans; eauto. }
    destruct (co_res o); simpl; exact R.
  - apply only_same; auto.
Qed.

Lemma eff_no_only pi p s : get pi (m_root s) = Some p ->
  forall (o : cbout) s0, m_root s0 = m_root s -> m_stack s0 = m_stack s ->
     m_stack (no_eff o s0) = m_stack s /\ exists q, mild p q /\ m_root (no_eff o s0) = put pi q (m_root s).
Proof.
  intros Hg o s0 H1 H2. split; auto. exists p. split; [apply mild_refl|]. rewrite (put_same _ _ Hg). auto.
Qed.

Lemma eff_pops_only pi p s : get pi (m_root s) = Some p ->
  forall o s0, m_root s0 = m_root s -> m_stack s0 = m_stack s ->
     m_stack (pops_eff pi o s0) = m_stack s /\ exists q, mild p q /\ m_root (pops_eff pi o s0) = put pi q (m_root s).
Proof.
  intros Hg o s0 H1 H2. unfold pops_eff. rewrite H1, Hg. split; auto. simpl.
  exists (apply_pops (co_pops o) p). split; [apply mild_pops|]. rewrite H1; auto.
Qed.

Lemma eff_cust_only pi p s : get pi (m_root s) = Some p ->
  forall o s0, m_root s0 = m_root s -> m_stack s0 = m_stack s ->
     m_stack (cust_eff pi o s0) = m_stack s /\ exists q, mild p q /\ m_root (cust_eff pi o s0) = put pi q (m_root s).
Proof.
  intros Hg o s0 H1 H2. unfold cust_eff. rewrite H1, Hg. destruct p; try (apply (eff_no_only _ _ Hg o); auto; fail).
  split; auto. simpl. eexists. split; [|rewrite H1; reflexivity].
  eapply mild_trans; [apply mild_obj, mild_ms_refl|apply mild_pops].
Qed.

Lemma only_trans pi p q s r : get pi (m_root s) = Some p -> mild p q -> only pi q (upd s pi q) r -> only pi p s r.
Proof.
  intros Hg Hm. unfold only. destruct r as [s'|e s'|u|]; auto; intros (H1 & H2 & q' & H3 & H4);
    (split; [auto|]); (split; [eapply mild_trans; [|exact H2]; simpl; eapply mild_put; eauto|]);
    exists q'; (split; [auto|eapply mild_trans; eauto]).
Qed.

Lemma only_finish pi p s : get pi (m_root s) = Some p -> only pi p s (Model.finish E pi s).
Proof.
  intros Hg. unfold Model.finish, at_node. rewrite Hg.
  assert (Hu : forall q e, mild p q -> only pi p s (RThrow e (upd s pi q))).
  { intros q e Hm. eapply only_put; eauto. }
  assert (Hu' : forall q, mild p q -> only pi p s (ROk (upd s pi q))).
  { intros q Hm. eapply only_put; eauto. }
  assert (Hc : forall q c a msg, mild p q -> only pi p s (run_cb E c a no_eff msg (upd s pi q))).
  { intros q c a msg Hm. eapply only_trans; eauto.
    assert (Hg' : get pi (m_root (upd s pi q)) = Some q) by (simpl; eapply get_put_same; eauto; apply (mi_fine Hm)).
    apply only_run_cb; auto. apply eff_no_only; auto. }
  destruct p as [b ty v cb|b sd st vals e cb|b st key vals e ecb cb|b k v ms ig ign cb|b st v ty tm cur ms ig cb|i].
  - apply only_run_cb; auto. apply eff_no_only; auto.
  - destruct st; apply only_run_cb; auto using eff_no_only, eff_pops_only.
  - apply only_run_cb; auto using eff_pops_only.
  - destruct (b_empty b); [apply Hu', mild_set_set|]. destruct k.
    + destruct (check_members E ms); [apply Hu, mild_set_set|apply only_run_cb; auto using eff_pops_only].
    + destruct (set_values E ms) as [ms' [e|vs]] eqn:Hv; apply mild_set_values in Hv.
      * apply Hu. eapply mild_trans; [|apply mild_set_set]. apply mild_obj; auto.
      * apply Hc. apply mild_obj; auto.
    + destruct (check_members E ms); [apply Hu, mild_set_set|apply only_run_cb; auto using eff_cust_only].
  - destruct (b_empty b); [apply Hu', mild_set_set|]. destruct st.
    + destruct (uni_set_value E cur ms) as [ms' [e|vs]] eqn:Hv; apply mild_uni_set_value in Hv.
      * apply Hu. eapply mild_trans; [|apply mild_set_set]. apply mild_uni; auto.
      * apply Hc. apply mild_uni; auto.
    + destruct (uni_check cur ms); [apply Hu, mild_set_set|apply only_run_cb; auto using eff_pops_only].
  - simpl. apply only_same; auto.
Qed.

Lemma only_eased pi p s r : get pi (m_root s) = Some p -> only pi p s r ->
  match r with
  | ROk s' | RThrow _ s' => eased s s' /\ exists q, get pi (m_root s') = Some q /\ mild p q
  | _ => True
  end.
Proof.
  intros Hg. unfold only. destruct r as [s'|e s'|u|]; auto; intros (H1 & H2 & H3); (split; [split; auto|auto]).
Qed.

Lemma eased_throw n o k e s s' : A n s -> eased s s' -> apost n o k (RThrow e s').
Proof. intros H He. apply apost_throw. eapply eased_A; eauto. Qed.

Lemma eased_ok n o k s s' : A n s -> top_ok s -> eased s s' -> apost n o k (ROk s').
Proof.
  intros H Ht He. split; [|right; eapply eased_top; eauto]. eapply A_mono; [eapply eased_A; eauto|lia].
Qed.

Lemma get_elem pi T p c st : get pi T = Some p -> child p st = Some c -> get (pi ++ [st])%list T = Some c.
Proof. intros H Hc. rewrite get_app, H. simpl. rewrite Hc. auto. Qed.

Section Step.
Variable rec : call -> mstate -> res.
Hypothesis IH : forall n c s, apre n c s -> apost n (call_open c) (call_key c) (rec c s).
Hypothesis Hval : forall pi t s p, get pi (m_root s) = Some p -> is_val p = true ->
  t = TMapStart \/ t = TArrStart -> rec (COn pi t) s = RFuel \/ exists e, rec (COn pi t) s = RThrow e s.

Lemma post_pop_if n k d s : A n s -> (d = None -> top_ok s) -> apost n 0 k (pop_if_disp g rec d s).
Proof.
  intros H Hd. unfold pop_if_disp. destruct d as [x|].
  - apply apost_deref. intros _. assert (K : apost n 0 false (rec CPop s)) by (apply (@IH n CPop _); split; auto).
    destruct (rec CPop s); auto. simpl in *. destruct K as [K1 [K2|K2]]; [discriminate|auto].
  - simpl. split; auto. rewrite Nat.add_0_r. auto.
Qed.

Lemma post_null n k pi p s : A n s -> get pi (m_root s) = Some p -> may pi s ->
  apost n 0 k (on_null g rec pi p s).
Proof.
  intros H Hg Hm. unfold on_null. apply post_pop_if.
  - eapply eased_A; eauto. eapply eased_upd; eauto using mild_reset.
  - intros Hd. eapply eased_top; [|eapply eased_upd; eauto using mild_reset].
    destruct Hm as [Hm|[_ (p0 & Hp0 & Hd0)]]; auto. congruence.
Qed.

Lemma weaken_key n o r k : apost n o false r -> apost n o k r.
Proof. destruct r; simpl; auto. intros [H1 [H2|H2]]; [discriminate|auto]. Qed.

Lemma call_body_arrays n c s : apre n c s -> apost n (call_open c) (call_key c) (call_body E g rec c s).
Proof.
  intros [H Hc]. destruct c as [|t|pi t|pi|pi]; cbn [call_body call_open call_key].
  - (* pop *)
    unfold body_pop. destruct (m_stack s) as [|x st] eqn:Hs; [apply apost_throw; auto|].
    destruct H as [H1 H2 H3 H4]. rewrite Hs in *. simpl in H4. apply nested_tail in H3.
    destruct st as [|q st].
    + simpl. split; [|right; exact I]. split; simpl; auto. lia.
    + apply (@IH n (CChild q) _). inversion H4; subst. split; [split; simpl; auto|]. exact H5.
  - (* dispatch *)
    unfold body_disp. destruct (m_stack s) as [|q st] eqn:Hs; [apply apost_throw; auto|].
    assert (Hq : (exists pi, pushed pi s) -> pushed q s).
    { intros [pi [[r Hr] Hp]]. rewrite Hs in Hr. injection Hr as <- <-. split; eauto. }
    apply (@IH n (COn q t) _). split; auto. destruct Hc as [Hc1 Hc2]. split.
    + destruct Hc1; [left; auto|right; auto].
    + split; [rewrite Hs; apply under_top|auto].
  - (* on *)
    destruct Hc as (Hm & Hu & Hpu). unfold body_on, at_node.
    destruct (get pi (m_root s)) as [p|] eqn:Hg; [|exact I].
    assert (Hth : forall e o k, apost n o k (RThrow e s)) by (intros; apply apost_throw; auto).
    assert (Hend : forall k, apost n 0 k (rec (CEnd pi) s)).
    { intros k. apply weaken_key. apply (@IH n (CEnd pi) _). split; auto. }
    destruct p as [b ty v cb|b sd st vals e cb|b st key vals e ecb cb|b k v ms ig ign cb|b st v ty tm cur ms ig cb|i].
    + (* value *)
      unfold on_val. destruct t; cbn [is_open is_key]; try apply Hth; [eapply post_null; eauto|].
      destruct (takes_scalar ty x); [|apply Hth]. set (q := PVal _ _ _ _).
      assert (Hq : mild (PVal b ty v cb) q).
      { apply (@mild_trans _ (set_not_empty (PVal b ty v cb))); [apply mild_not_empty|].
        split; [split; simpl; auto|auto|auto|]. intros [|y r]; auto. }
      apply (@IH n (CEnd pi) _). split; [eapply eased_A; eauto using eased_upd|]. simpl. eapply eased_may; eauto.
    + (* array *)
      assert (Helem : get (pi ++ [Elem])%list (m_root s) = Some e) by (eapply get_elem; eauto; reflexivity).
      assert (Hsoft : sd = true -> forall t', is_open t' = 0 -> is_key t' = false -> t' <> TArrEnd ->
                apost n 0 false (rec (COn (pi ++ [Elem])%list t') s)).
      { intros Hsd t' Ho Hk Ht. pose proof (@IH n (COn (pi ++ [Elem])%list t') s) as K. cbn [call_open call_key] in K.
        rewrite Ho, Hk in K. apply K. split; auto. split; [left; eapply may_top; [exact Hg|exact Hm|exact Hsd]|].
        split; [apply under_app; auto|congruence]. }
      assert (Henter : sd = true -> forall t', t' = TMapStart \/ t' = TArrStart ->
                apost n (is_open t') false (arr_enter g rec pi (PArr b sd st vals e cb) t' s)).
      { intros Hsd t' Ht. unfold arr_enter. apply apost_deref. intros Hd.
        set (s1 := upd s pi _).
        assert (Hg1 : get (pi ++ [Elem])%list (m_root s1) = Some (set_disp (b_disp b) e)).
        { eapply get_elem; [simpl; eapply get_put_same; [exact Hg|exact I]|reflexivity]. }
        destruct (is_val e) eqn:Hv.
        - destruct (@Hval (pi ++ [Elem])%list t' (push s1 (pi ++ [Elem])%list) (set_disp (b_disp b) e)) as [->|[e0 ->]];
            auto; [destruct e; auto|exact I|].
          simpl. assert (Ho : opened (put pi (set_not_empty (PArr b sd st vals (set_disp (b_disp b) e) cb)) (m_root s))
                          + opened (PArr b sd st vals e cb) = opened (m_root s) +
                            opened (set_not_empty (PArr b sd st vals (set_disp (b_disp b) e) cb))).
          { apply opened_put; auto. exact I. }
          simpl in Ho. rewrite opened_set_disp in Ho.
          pose proof (A_open H) as Hop. split; [simpl; lia|right].
          assert (Hge : get pi (put pi (set_not_empty (PArr b sd st vals (set_disp (b_disp b) e) cb)) (m_root s)) =
                        Some (set_not_empty (PArr b sd st vals (set_disp (b_disp b) e) cb)))
            by (eapply get_put_same; [exact Hg|exact I]).
          apply opened_get in Hge. cbn -[put] in Hge. subst sd. lia.
        - pose proof (@mild_enter b sd st vals e cb (b_disp b) Hv) as Hmi.
          assert (Hea : eased s s1) by (eapply eased_upd; eauto).
          assert (Htop : top_ok s1) by (eapply eased_top; eauto; eapply may_top; [exact Hg|exact Hm|exact Hsd]).
          assert (HA : A n (push s1 (pi ++ [Elem])%list)).
          { apply A_push; [eapply eased_A; eauto|auto|]. apply nested_push; [apply (A_nest H)|auto]. }
          pose proof (@IH n (COn (pi ++ [Elem])%list t') (push s1 (pi ++ [Elem])%list)) as K.
          cbn [call_open call_key] in K. replace (is_key t') with false in K by (destruct Ht as [-> | ->]; auto).
          apply K. split; auto. split; [right|split; [apply under_top|destruct Ht; congruence]].
          split; [eexists; reflexivity|]. eexists. split; [exact Hg1|].
          destruct e; unfold disp_of; simpl; auto. }
      unfold on_arr. destruct t; cbn [is_open is_key]; try apply Hth.
      * destruct sd; [apply Hsoft; auto; discriminate|]. eapply post_null; eauto.
      * destruct sd; [|apply Hth]. eapply apost_bind; [apply (Hsoft eq_refl (TSc x)); auto; discriminate|].
        intros s1 H1 [K|K]; [discriminate|]. rewrite Nat.add_0_r in H1. unfold at_node.
        destruct (get pi (m_root s1)) as [p1|] eqn:Hg1; [|exact I].
        apply (@IH n (CChild pi) _). split; [eapply eased_A; eauto; eapply eased_upd; eauto using mild_not_empty|].
        simpl. eapply eased_top; eauto. eapply eased_upd; eauto using mild_not_empty.
      * destruct sd; [apply Henter; auto|apply Hth].
      * destruct sd; [apply (Henter eq_refl TArrStart); auto|]. simpl reset.
        set (q := PArr (reset_base b) true st (if st then [] else vals) (reset e) cb).
        assert (Hk : same_kind (PArr b false st vals e cb) q) by exact I.
        pose proof (mild_reset e) as Hr.
        assert (Hup : up (PArr b false st vals e cb) q).
        { apply up_intro; [left; reflexivity|]. intros [] d Hd; simpl in Hd; try discriminate.
          injection Hd as <-. eexists; split; [reflexivity|apply (mi_up Hr)]. }
        pose proof (up_put _ _ Hg Hk Hup) as Hupt.
        destruct H as [H1 H2 H3 H4]. simpl. split.
        -- split; simpl; auto.
           ++ pose proof (opened_put _ _ _ Hg Hk) as K. cbn -[put] in K. cbn -[put]. pose proof (mi_open Hr). fold q. lia.
           ++ eapply wf_put; [exact Hg|auto| |split; auto]. pose proof (wf_get _ _ H2 Hg) as [K1 K2].
              simpl. split; [apply (mi_wf Hr); auto|]. eapply free_fine; [apply (mi_fine Hr)|auto].
           ++ eapply Forall_impl; [|exact H4]. intros a. apply Hupt.
        -- right. unfold top_ok. simpl. destruct Hm as [Hm|[[r Hr'] _]].
           ++ unfold top_ok in Hm. destruct (m_stack s); auto.
           ++ rewrite Hr'. unfold ats. erewrite get_put_same; eauto.
      * destruct (arr_end H (Hpu eq_refl) Hg) as [K1 K2].
        apply (@IH n (CEnd pi) _). split; [eapply A_mono; eauto; lia|right; auto].
    + (* map *)
      assert (Htop : top_ok s) by (eapply may_top; eauto; exact I).
      unfold on_map. destruct t; cbn [is_open is_key]; try apply Hth.
      * eapply post_null; eauto.
      * eapply eased_ok; eauto. eapply eased_upd; eauto using mild_reset.
      * apply apost_deref. intros _. set (q := set_not_empty _).
        assert (Hq : mild (PMap b st key vals e ecb cb) q).
        { eapply mild_trans; [|apply mild_not_empty]. apply mild_map, mild_refl. }
        assert (Hea : eased s (upd s pi q)) by (eapply eased_upd; eauto).
        simpl. split; [|auto]. rewrite Nat.add_0_r. apply A_push; [eapply eased_A; eauto|eapply eased_top; eauto|].
        apply nested_push; [apply (A_nest H)|auto].
      * apply Hend.
    + (* object *)
      assert (Htop : top_ok s) by (eapply may_top; eauto; exact I).
      unfold on_obj. destruct t; cbn [is_open is_key]; try apply Hth.
      * eapply post_null; eauto.
      * eapply eased_ok; eauto. eapply eased_upd; eauto using mild_reset.
      * unfold on_member. set (q := set_not_empty _).
        assert (Hea : eased s (upd s pi q)) by (eapply eased_upd; eauto; apply mild_not_empty).
        assert (Hpush : forall x, A n (push (upd s pi q) (pi ++ [x])%list)).
        { intros x. apply A_push; [eapply eased_A; eauto|eapply eased_top; eauto|].
          apply nested_push; [apply (A_nest H)|auto]. }
        destruct (lookup (SStr k0) ms) as [j|].
        -- apply apost_deref. intros _. simpl. rewrite Nat.add_0_r. auto.
        -- destruct ign; [apply apost_deref; intros _; simpl; rewrite Nat.add_0_r; auto|].
           eapply eased_throw; eauto.
      * apply Hend.
    + (* union *)
      assert (Htop : top_ok s) by (eapply may_top; eauto; exact I).
      unfold on_uni. destruct t; cbn [is_open is_key]; try apply Hth.
      * eapply post_null; eauto.
      * destruct (takes_scalar ty x); [|apply Hth]. set (p1 := reset _).
        assert (Hea1 : eased s (upd s pi p1)) by (eapply eased_upd; eauto; apply mild_reset).
        assert (Hg1 : get pi (m_root (upd s pi p1)) = Some p1) by (simpl; eapply get_put_same; [exact Hg|exact I]).
        unfold on_member. destruct (lookup x ms) as [j|] eqn:Hl; [|].
        -- unfold deref. destruct (disp_of p1) as [d|]; [|exact I]. destruct (Nat.eqb d g); [|exact I].
           cbn [bind]. set (s1 := upd (upd s pi p1) pi (set_not_empty p1)).
           assert (Hea2 : eased s s1).
           { destruct Hea1 as [A1 A2]. assert (Hea : eased (upd s pi p1) s1) by (eapply eased_upd; eauto; apply mild_not_empty).
             destruct Hea as [B1 B2]. split; [eapply mild_trans; eauto|congruence]. }
           assert (Hg2 : get pi (m_root s1) = Some (set_not_empty p1)) by (simpl; eapply get_put_same; [exact Hg1|exact I]).
           unfold at_node. change (m_root (push s1 (pi ++ [Mem j])%list)) with (m_root s1). rewrite Hg2.
           unfold p1. cbn [reset set_not_empty with_base base_of]. fold p1.
           set (q := PUni _ _ _ _ _ _ _ _ _).
           assert (Hq : mild (set_not_empty p1) q) by (unfold p1; simpl; apply mild_uni, mild_ms_refl).
           assert (HA : A n (push s1 (pi ++ [Mem j])%list)).
           { apply A_push; [eapply eased_A; eauto|eapply eased_top; eauto|].
             apply nested_push; [apply (A_nest H)|auto]. }
           assert (Hea3 : eased (push s1 (pi ++ [Mem j])%list) (upd (push s1 (pi ++ [Mem j])%list) pi q))
             by (eapply eased_upd; eauto).
           simpl apost. split; [rewrite Nat.add_0_r; eapply eased_A; eauto|]. right.
           unfold top_ok. simpl. unfold ats.
           assert (Hgq : get pi (put pi q (m_root s1)) = Some q) by (eapply get_put_same; [exact Hg2|exact I]).
           simpl in Hgq. rewrite get_app, Hgq. unfold q. simpl. rewrite nth_error_map.
           destruct (nth_error ms j) as [mp|] eqn:Hn; [|exact I]. simpl.
           pose proof (wf_get _ _ (A_wf H) Hg) as Hw. simpl in Hw.
           pose proof (@all_nth (fun p => wf p /\ not_arr p) _ _ _ Hw Hn) as [_ Hna].
           destruct (snd mp); simpl in *; auto; tauto.
        -- cbn [bind]. apply (@eased_throw n 0 false _ s); auto.
           destruct Hea1 as [A1 A2]. assert (Hea : eased (upd s pi p1) (upd (upd s pi p1) pi (set_not_empty p1)))
             by (eapply eased_upd; eauto; apply mild_not_empty).
           destruct Hea as [B1 B2]. split; [eapply mild_trans; eauto|congruence].
      * destruct (String.eqb tm ""); [apply Hth|]. eapply eased_ok; eauto. eapply eased_upd; eauto using mild_reset.
      * destruct (String.eqb tm ""); [apply Hth|]. destruct (String.eqb k tm); [|apply Hth].
        simpl. rewrite Nat.add_0_r. auto.
      * apply Hend.
    + (* ignore *)
      assert (Htop : top_ok s) by (eapply may_top; eauto; exact I).
      assert (Hi : forall r, opened (PIgn (mkI (ig_b i) r)) <= opened (PIgn i) ->
                 mild (PIgn i) (PIgn (mkI (ig_b i) r))).
      { intros r Hr. split; [split; simpl; auto|auto|auto|apply up_leaf]. }
      assert (Hie : forall r k, opened (PIgn (mkI (ig_b i) r)) <= opened (PIgn i) ->
                 apost n 0 k (rec (CEnd pi) (upd s pi (PIgn (mkI (ig_b i) r))))).
      { intros r k Hr. apply weaken_key. apply (@IH n (CEnd pi) _).
        split; [eapply eased_A; eauto; eapply eased_upd; eauto|]. simpl. eapply eased_may; eauto. }
      unfold on_ign. destruct t; cbn [is_open is_key]; try apply Hth.
      * eapply post_null; eauto.
      * destruct (ig_st i); [apply Hend|]. simpl. rewrite Nat.add_0_r. auto.
      * eapply eased_ok; eauto. eapply eased_upd; eauto.
      * destruct (ig_st i) as [|[] r] eqn:Hst; try apply Hth. simpl. rewrite Nat.add_0_r. auto.
      * destruct (ig_st i) as [|[] r] eqn:Hst; try apply Hth.
        assert (Hr : opened (PIgn (mkI (ig_b i) r)) <= opened (PIgn i)) by (simpl; unfold open_i; rewrite Hst; auto).
        destruct r; [apply Hie; auto|]. eapply eased_ok; eauto. eapply eased_upd; eauto.
      * assert (Hk : same_kind (PIgn i) (PIgn (mkI (ig_b i) (StArr :: ig_st i)))) by exact I.
        pose proof (up_put _ _ Hg Hk (@up_leaf _ _)) as Hupt. destruct H as [H1 H2 H3 H4].
        simpl. split; [split; simpl; auto|].
        -- pose proof (opened_put _ _ _ Hg Hk) as K. simpl in K. unfold open_i in *. simpl in K. lia.
        -- eapply wf_put; [exact Hg|auto|exact I|split; auto].
        -- eapply Forall_impl; [|exact H4]. intros a. apply Hupt.
        -- right. unfold top_ok in *. simpl. destruct (m_stack s); auto.
      * destruct (ig_st i) as [|[] r] eqn:Hst; try apply Hth.
        assert (Hr : opened (PIgn (mkI (ig_b i) r)) <= opened (PIgn i)) by (simpl; unfold open_i; rewrite Hst; simpl; lia).
        destruct r; [apply Hie; auto|]. eapply eased_ok; eauto. eapply eased_upd; eauto.
  - (* end *)
    unfold body_end, at_node. destruct (get pi (m_root s)) as [p|] eqn:Hg; [|exact I].
    pose proof (mild_set_set true p) as Hm1.
    assert (Hg1 : get pi (m_root (upd s pi (set_set true p))) = Some (set_set true p))
      by (simpl; eapply get_put_same; [exact Hg|apply (mi_fine Hm1)]).
    assert (Hea1 : eased s (upd s pi (set_set true p))) by (eapply eased_upd; eauto).
    pose proof (only_eased _ _ _ Hg1 (only_finish _ _ Hg1)) as Hf.
    destruct (Model.finish E pi (upd s pi (set_set true p))) as [s2|e s2|u|] eqn:Hfin; cbn [bind]; try exact I.
    + destruct Hf as [Hea2 (q & Hq & Hmq)]. rewrite Hq.
      apply post_pop_if.
      * eapply eased_A; [|exact Hea2]. eapply eased_A; eauto.
      * intros Hd. eapply eased_top; [|exact Hea2]. eapply eased_top; [|exact Hea1].
        destruct Hc as [Hc|[_ (p0 & Hp0 & Hd0)]]; auto.
        destruct (mi_fine Hm1) as [_ K1]. destruct (mi_fine Hmq) as [_ K2]. congruence.
    + destruct Hf as [Hea2 _]. eapply eased_throw; [|exact Hea2]. eapply eased_A; eauto.
  - (* child *)
    unfold body_child, at_node. destruct (get pi (m_root s)) as [p|] eqn:Hg; [|exact I].
    assert (Hok : apost n 0 false (ROk s)) by (simpl; rewrite Nat.add_0_r; auto).
    destruct p as [b ty v cb|b sd st vals e cb|b st key vals e ecb cb|b k v ms ig ign cb|b st v ty tm cur ms ig cb|i]; auto.
    + destruct st; auto. destruct (pop_value e) as [[v e']|] eqn:Hv; [|apply apost_throw; auto].
      destruct (e_store E v); [eapply eased_throw; eauto|eapply eased_ok; eauto];
        (eapply eased_upd; eauto; apply mild_arr; eapply mild_pop_value; eauto).
    + assert (Hge : get (pi ++ [Elem])%list (m_root s) = Some e) by (eapply get_elem; eauto; reflexivity).
      set (r := run_cb E ecb (AElem key e) (pops_eff (pi ++ [Elem])%list) e_ecb_false s).
      assert (Hr : only (pi ++ [Elem])%list e s r) by (apply only_run_cb; auto using eff_pops_only).
      pose proof (only_eased _ _ _ Hge Hr) as Hf.
      destruct r as [s1|x s1|u|]; cbn [bind]; try exact I.
      * destruct Hf as [Hea _]. assert (H1 : A n s1) by (eapply eased_A; eauto).
        assert (Ht1 : top_ok s1) by (eapply eased_top; eauto).
        assert (Hok1 : apost n 0 false (ROk s1)) by (simpl; rewrite Nat.add_0_r; auto).
        destruct st; auto. destruct (get pi (m_root s1)) as [p1|] eqn:Hg1; [|exact I].
        destruct p1 as [| |b1 st1 key1 vals1 e1 ecb1 cb1| | |]; auto.
        destruct (pop_value e1) as [[v e']|] eqn:Hv; [|apply apost_throw; auto].
        destruct (e_store E v); [eapply eased_throw; eauto|eapply eased_ok; eauto];
          (eapply eased_upd; eauto; apply mild_map; eapply mild_pop_value; eauto).
      * destruct Hf as [Hea _]. eapply eased_throw; eauto.
    + eapply apost_bind.
      * apply (@IH n (CEnd pi) _). split; auto. left; auto.
      * intros s1 H1 [K|K]; [discriminate|]. cbn [call_open] in H1. rewrite Nat.add_0_r in H1.
        destruct (String.eqb tm ""); [|simpl; rewrite Nat.add_0_r; auto].
        destruct (get pi (m_root s1)) as [p1|]; [|exact I]. apply apost_deref. intros _.
        apply (@IH n (CDisp TMapEnd) _). split; auto. split; [auto|discriminate].
Qed.
End Step.
End Exec.

Lemma fault_arrays g n c s x s' o k : apre n c s -> In s' (faults g c s) -> apost n o k (RThrow x s').
Proof.
  intros [H Hc] Hin. destruct c as [|t|pi t|pi|pi]; try contradiction. cbn [faults] in Hin.
  destruct (get pi (m_root s)) as [p|] eqn:Hg; [|contradiction].
  assert (Hup : forall q, mild p q -> upd s pi q = s' -> apost n o k (RThrow x s')).
  { intros q Hm <-. eapply eased_throw; eauto. eapply eased_upd; eauto. }
  assert (Hpush : forall q pi', mild p q -> push (upd s pi q) pi' = s' -> apost n o k (RThrow x s')).
  { intros q pi' Hm <-. pose proof (@eased_throw n o k x s (upd s pi q) H (eased_upd _ _ Hg Hm)) as K. exact K. }
  assert (Henter : forall b st vals e cb, p = PArr b true st vals e cb ->
     upd s pi (set_not_empty (PArr b true st vals (set_disp (b_disp b) e) cb)) = s' -> apost n o k (RThrow x s')).
  { intros b st vals e cb -> <-.
    assert (Ho : opened (put pi (set_not_empty (PArr b true st vals (set_disp (b_disp b) e) cb)) (m_root s))
                    + opened (PArr b true st vals e cb) = opened (m_root s) +
                      opened (set_not_empty (PArr b true st vals (set_disp (b_disp b) e) cb))).
    { apply opened_put; auto. exact I. }
    simpl in Ho. rewrite opened_set_disp in Ho.
    pose proof (A_open H) as Hop. split; [simpl; lia|right]. simpl m_root.
    assert (Hge : get pi (put pi (set_not_empty (PArr b true st vals (set_disp (b_disp b) e) cb)) (m_root s)) =
                  Some (set_not_empty (PArr b true st vals (set_disp (b_disp b) e) cb)))
      by (eapply get_put_same; [exact Hg|exact I]).
    apply opened_get in Hge. cbn -[put] in Hge. cbn -[put]. lia. }
  destruct p, t; try contradiction.
  - destruct (takes_scalar _ _); [|contradiction]. destruct Hin as [K|[]]. eapply Hup; eauto using mild_not_empty.
  - destruct started; [|contradiction]. apply in_live in Hin. destruct Hin as [_ [K|[]]]. eapply Henter; eauto.
  - destruct started; [|contradiction]. apply in_live in Hin. destruct Hin as [_ [K|[]]]. eapply Henter; eauto.
  - apply in_live in Hin. destruct Hin as [_ [K|[K|[]]]]; [eapply Hup|eapply Hpush]; eauto using mild_not_empty.
  - destruct Hin as [K|[]]. eapply Hup; eauto using mild_not_empty.
  - destruct (takes_scalar _ _); [|contradiction].
    assert (Hm : mild (PUni b store v t0 tm cur ms ig cb) (set_not_empty (reset (PUni b store v t0 tm cur ms ig cb))))
      by (eapply mild_trans; [apply mild_reset|apply mild_not_empty]).
    destruct Hin as [K|Hin]; [eapply Hup; eauto|]. destruct (lookup x0 ms); [|contradiction].
    apply in_live in Hin. destruct Hin as [_ [K|[]]]. eapply Hpush; eauto.
  - destruct Hin as [<-|[]]. apply apost_throw; auto.
  - destruct Hin as [<-|[]]. apply apost_throw; auto.
Qed.

Lemma body_arrays E g rec n c s :
  (forall n c s, apre n c s -> apost n (call_open c) (call_key c) (rec c s)) ->
  (forall pi t s p, get pi (m_root s) = Some p -> is_val p = true ->
     t = TMapStart \/ t = TArrStart -> rec (COn pi t) s = RFuel \/ exists e, rec (COn pi t) s = RThrow e s) ->
  apre n c s -> apost n (call_open c) (call_key c) (Model.body E g rec c s).
Proof.
  intros IH Hval H. apply body_cases.
  - intros E' _ _ _. apply call_body_arrays; auto.
  - intros x s' Hs. eapply fault_arrays; eauto.
Qed.

Lemma exec_arrays E g f : forall n c s, apre n c s -> apost n (call_open c) (call_key c) (exec E g f c s).
Proof.
  induction f as [|f IH]; intros n c s H; [exact I|]. simpl. apply body_arrays; auto.
  intros pi t s' p Hg Hv Ht. destruct f as [|f]; [left; reflexivity|right]. cbn [exec].
  destruct p; try discriminate. apply body_cases.
  - intros E' _ _ _. cbn [call_body]. unfold body_on, at_node. rewrite Hg.
    destruct Ht as [-> | ->]; simpl; unfold throw_unexpected; eauto.
  - intros x s1 Hin. cbn [faults] in Hin. rewrite Hg in Hin. destruct Ht as [-> | ->]; contradiction.
Qed.

(** *** Runs *)
Fixpoint order_from (bad : bool) (ts : list token) : Prop :=
  match ts with
  | [] => True
  | t :: r => (t = TArrEnd -> bad = false) /\ order_from (is_key t) r
  end.

Definition opens (ts : list token) : nat :=
  List.length (filter (fun t => match t with TArrStart => true | _ => false end) ts).
Definition closes (ts : list token) : nat :=
  List.length (filter (fun t => match t with TArrEnd => true | _ => false end) ts).

Section Runs.
Variable E : env.
Variable g : nat.
Variable sch : schema.
Hypothesis Hsch : no_arr_uni sch = true.

Lemma linv_pushed s top r : linv g sch s -> m_stack s = top :: r -> pushed top s.
Proof.
  intros Hi Hs. split; eauto. pose proof (linv_stack Hi) as H. rewrite Hs in H. inversion H; subst.
  destruct H2 as (p & Hp & Ha). exists p. split; auto. rewrite (att_disp _ _ Ha). discriminate.
Qed.

(** A token other than the end of an array. *)
Lemma dispatch_arrays n bad t s : linv g sch s -> A n s -> bad = true \/ top_ok s -> t <> TArrEnd ->
  apost n (is_open t) (is_key t) (dispatch E g t s).
Proof.
  intros Hi HA Hb Ht. apply (@exec_arrays E g (fuel_for s) n (CDisp t)). split; auto. split; [|congruence].
  destruct (m_stack s) as [|top r] eqn:Hs; [left; unfold top_ok; rewrite Hs; exact I|].
  right. exists top. eapply linv_pushed; eauto.
Qed.

(** The end of an array. *)
Lemma dispatch_end n s : linv g sch s -> A n s -> top_ok s ->
  match dispatch E g TArrEnd s with
  | ROk s' => 1 <= n /\ A (n - 1) s' /\ top_ok s'
  | RThrow e s' => opened (m_root s') <= n /\ (wf (m_root s') \/ 1 <= opened (m_root s')) /\
      (opened (m_root s') <= n - 1 \/ e = unexpected_token TArrEnd \/ e = XStd e_stack_empty)
  | _ => True
  end.
Proof.
  intros Hi HA Ht. unfold dispatch. destruct (fuel_for s) as [|f]; [exact I|].
  cbn [exec]. apply body_cases; [|intros x s' []]. intros E1 _ _ _.
  cbn [call_body]. unfold body_disp. destruct (m_stack s) as [|top r] eqn:Hs.
  { destruct HA. simpl. auto 6. }
  destruct f as [|f]; [exact I|]. cbn [exec]. apply body_cases;
    [|intros x s' Hin; cbn [faults] in Hin; destruct (get top (m_root s)) as [[]|]; contradiction].
  intros E2 _ _ _. cbn [call_body]. unfold body_on, at_node.
  pose proof (linv_pushed Hi Hs) as Hp. destruct Hp as [_ (p & Hg & Hd)]. rewrite Hg.
  assert (Hth : match RThrow (unexpected_token TArrEnd) s with
     | ROk s' => 1 <= n /\ A (n - 1) s' /\ top_ok s'
     | RThrow e s' => opened (m_root s') <= n /\ (wf (m_root s') \/ 1 <= opened (m_root s')) /\
         (opened (m_root s') <= n - 1 \/ e = unexpected_token TArrEnd \/ e = XStd e_stack_empty)
     | _ => True end).
  { destruct HA. auto 6. }
  assert (Hlow : opened p <= n).
  { apply opened_get in Hg. pose proof (A_open HA). lia. }
  assert (Hend : forall s', 1 <= n -> A (n - 1) s' -> may top s' ->
     match exec E g f (CEnd top) s' with
     | ROk s' => 1 <= n /\ A (n - 1) s' /\ top_ok s'
     | RThrow e s' => opened (m_root s') <= n /\ (wf (m_root s') \/ 1 <= opened (m_root s')) /\
         (opened (m_root s') <= n - 1 \/ e = unexpected_token TArrEnd \/ e = XStd e_stack_empty)
     | _ => True end).
  { intros s' Hn HA' Hm. pose proof (@exec_arrays E g f (n - 1) (CEnd top) s' (conj HA' Hm)) as K.
    cbn [call_open call_key] in K. destruct (exec E g f (CEnd top) s'); simpl in K; auto.
    - rewrite Nat.add_0_r in K. destruct K as [K1 [K2|K2]]; [discriminate|auto].
    - destruct K. split; [lia|]. split; auto. }
  destruct p as [b ty v cb|b sd st vals e cb|b st key vals e ecb cb|b k v ms ig ign cb|b st v ty tm cur ms ig cb|i];
    try exact Hth.
  - assert (sd = true) as -> by (unfold top_ok, ats in Ht; rewrite Hs, Hg in Ht; auto).
    simpl in Hlow. destruct (arr_end HA (linv_pushed Hi Hs) Hg) as [K1 K2].
    cbn [on_arr]. apply Hend; [lia|auto|right; auto].
  - cbn [on_ign]. unfold on_ign. destruct (ig_st i) as [|[] q] eqn:Hst; try exact Hth.
    assert (Ho : opened (PIgn i) = S (opened (PIgn (mkI (ig_b i) q)))).
    { simpl. unfold open_i. rewrite Hst. reflexivity. }
    assert (Hm : mild (PIgn i) (PIgn (mkI (ig_b i) q))).
    { split; [split; simpl; auto|lia|auto|apply up_leaf]. }
    assert (HA' : A (n - 1) (upd s top (PIgn (mkI (ig_b i) q)))).
    { pose proof (eased_A HA (eased_upd _ _ Hg Hm)) as [B1 B2 B3 B4]. split; auto.
      pose proof (@opened_put top (m_root s) _ (PIgn (mkI (ig_b i) q)) Hg I) as K. simpl m_root.
      pose proof (A_open HA). lia. }
    assert (Hn : 1 <= n) by lia.
    destruct q as [|y q]; [apply Hend; auto; eapply eased_may; eauto; left; auto|].
    split; auto. split; auto. eapply eased_top; eauto. eapply eased_upd; eauto.
Qed.

Lemma run_arrays ts1 : forall rest bad n s s', linv g sch s -> A n s -> bad = true \/ top_ok s ->
  order_from bad (ts1 ++ rest)%list -> run E g ts1 s = ROk s' ->
  linv g sch s' /\ exists bad' n', A n' s' /\ (bad' = true \/ top_ok s') /\ order_from bad' rest /\
    n' + closes ts1 = n + opens ts1.
Proof.
  induction ts1 as [|t ts1 IH]; intros rest bad n s s' Hi HA Hb Ho Hr; cbn [run] in Hr.
  - injection Hr as <-. split; auto. exists bad, n. auto.
  - cbn [app order_from] in Ho. destruct Ho as [Ho1 Ho2].
    pose proof (@ldispatch_safe g E sch Hsch t s Hi) as Hl.
    destruct (dispatch E g t s) as [s1|e s1|u|] eqn:Hd; try discriminate. cbn [bind] in Hr.
    destruct Hl as [Hi1 _].
    destruct t as [|x| |k| | |];
      first [match type of Hd with dispatch _ _ ?t _ = _ =>
             pose proof (@dispatch_arrays n bad t s Hi HA Hb ltac:(discriminate)) as K end;
           rewrite Hd in K; destruct K as [K1 K2];
           destruct (IH rest _ _ s1 s' Hi1 K1 K2 Ho2 Hr) as (L1 & bad' & n' & L2 & L3 & L4 & L5);
           split; [exact L1|]; exists bad', n'; split; [exact L2|]; split; [exact L3|]; split; [exact L4|]; unfold opens, closes in *; simpl in *; lia | idtac].
    rewrite (Ho1 eq_refl) in Hb. destruct Hb as [Hb|Hb]; [discriminate|].
    pose proof (dispatch_end Hi HA Hb) as K. rewrite Hd in K. destruct K as (K1 & K2 & K3).
    destruct (IH rest _ _ s1 s' Hi1 K2 (or_intror K3) Ho2 Hr) as (L1 & bad' & n' & L2 & L3 & L4 & L5).
    split; auto. exists bad', n'. split; auto. split; auto. split; auto. unfold opens, closes in *. simpl in *. lia.
Qed.
End Runs.
