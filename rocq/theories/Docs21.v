(** Property theorems, part 21: no half-read value can be read (C49). *)

From Verif Require Import Spec Model Infra Total Safe Loose Refine Main Api ApiProofs History ApiFacts Closed Accept
  Access Findings Callbacks Typed Recall Unset Outcome Docs9 Lock Json JsonPlaced Depth Veil.
Local Open Scope string_scope.
Set Implicit Arguments.

(** ** C49 *)

(** The same program but for its callbacks. *)
Definition other_callbacks (E E' : env) : Prop :=
  e_fmt E' = e_fmt E /\ e_store E' = e_store E /\ e_alloc E' = e_alloc E.

Lemma calm_mk s : calm (mk s).
Proof.
  assert (H : forall rho p, get rho (mk s) = Some p -> is_set p = false); [|intros rho p Hg _; eauto].
  induction s as [| ? e ? IH| ? e ? ? IH | ? ms ? ? IH | ? ? ? ms ? IH |] using schema_ind'; intros [|y rho] p Hg;
    cbn [get] in Hg; try (injection Hg as <-; reflexivity); destruct y as [|n|]; try discriminate; cbn [mk child] in Hg.
  - eauto.
  - eauto.
  - rewrite nth_error_map in Hg. destruct (nth_error ms n) as [mp|] eqn:Hn; [|discriminate]. cbn [option_map snd] in Hg.
    rewrite Forall_forall in IH. eapply IH; [eapply nth_error_In; eauto|exact Hg].
  - destruct rho as [|? ?]; [|discriminate]. injection Hg as <-. reflexivity.
  - rewrite nth_error_map in Hg. destruct (nth_error ms n) as [mp|] eqn:Hn; [|discriminate]. cbn [option_map snd] in Hg.
    rewrite Forall_forall in IH. eapply IH; [eapply nth_error_In; eauto|exact Hg].
  - destruct rho as [|? ?]; [|discriminate]. injection Hg as <-. reflexivity.
Qed.

Lemma run_lex E g ts : forall s, match run E g ts s with ROk s' | RThrow _ s' => le_p g (m_root s) (m_root s') | _ => True end.
Proof.
  induction ts as [|t ts IH]; intros s; cbn [run]; [apply le_refl|].
  pose proof (exec_le E g (fuel_for s) (CDisp t) s) as H. unfold dispatch.
  destruct (exec E g (fuel_for s) (CDisp t) s) as [s1|x s1|u|]; cbn [bind Lock.lex] in *; auto.
  specialize (IH s1). destruct (run E g ts s1); auto; eapply le_trans; eauto.
Qed.

Lemma set_callback_kids w c p : is_set (set_callback w c p) = is_set p /\ started (set_callback w c p) = started p /\
  same_kind p (set_callback w c p) /\ forall st, child (set_callback w c p) st = child p st.
Proof. destruct p, w; cbn; auto 6. Qed.

Lemma used_veil tk yerr s l g (a : api tk) : used yerr s l g a ->
  calm (m_root (a_m a)) /\ att g (m_root (a_m a)) /\ schema_of (m_root (a_m a)) = s.
Proof.
  induction 1 as [s l g|s l g a E o a' _ IH Ho|s l g a rel _ IH|s l g a g' _ IH|s l g a w pi c _ IH].
  - split; [apply calm_set_disp, calm_mk|]. split; [apply att_set_disp|]. simpl. rewrite schema_set_disp. apply schema_mk.
  - pose proof (@keep_op tk g yerr E (fun m => calm (m_root m) /\ att g (m_root m) /\ schema_of (m_root m) = s)) as K.
    match type of K with ?A -> ?B -> _ => assert (K1 : A) by (intros m H; exact H); assert (K2 : B) end.
    { intros ts m (H1 & H2 & H3). pose proof (calm_run g E ts m H1) as R1. pose proof (run_lex E g ts m) as R2.
      destruct (run E g ts m); auto; (split; [exact R1|split; [eapply le_att; eauto|rewrite <- H3; symmetry; eapply le_schema; eauto]]). }
    specialize (K K1 K2 o a IH). destruct Ho as [Ho|[x Ho]]; rewrite Ho in K; exact K.
  - destruct IH as (H1 & H2 & H3). simpl. split; [eapply calm_dims; [exact H1|apply dims_unset_at]|].
    pose proof (le_unset_at g (m_root (a_m a)) rel) as Hl. split; [eapply le_att; eauto|]. rewrite <- H3. symmetry. eapply le_schema; eauto.
  - destruct IH as (H1 & H2 & H3). simpl. split; [apply calm_set_disp; auto|]. split; [apply att_set_disp|]. rewrite schema_set_disp. auto.
  - destruct IH as (H1 & H2 & H3). cbn [user_set_callback a_m m_root]. split; [|split].
    + unfold set_callback_at. destruct (get pi (m_root (a_m a))) as [q|] eqn:Hg; auto.
      destruct (set_callback_kids w c q) as (A1 & A2 & A3 & A4).
      pose proof (calm_get _ H1 Hg) as Hq. eapply calm_put; eauto. apply calm_node; [rewrite A1, A2; apply (calm_own Hq)|].
      intros st d Hd. rewrite A4 in Hd. eapply calm_child; eauto.
    + apply att_uncb. rewrite uncb_set_at. apply att_uncb. auto.
    + rewrite schema_set_at, H3. reflexivity.
Qed.

Lemma okst_start g m : calm (m_root m) -> okst g true (mkS (m_root m) [[]] (m_log m)).
Proof.
  intros H. split; [exact H|]. split; [exact I|]. split; [|discriminate]. intros a st rel q Hp. destruct a; discriminate.
Qed.

(** Callbacks are invoked at the right moments only: after any past, any document, in any
    chunks, has the same outcome, whatever the callbacks would do at other moments. *)
Lemma c49_callbacks : forall (tk : tokenizer) yerr s l g (a : api tk) E E' M b bufs bs,
  used yerr s l g a -> at_start a -> content M (b :: bufs) = Some bs -> values_lead true (fst (tokenize tk bs)) ->
  other_callbacks E E' -> (forall c h T x, due c T x -> e_cb E' c h T x = e_cb E c h T x) ->
  observe (document E' g yerr M (b :: bufs) a) = observe (document E g yerr M (b :: bufs) a).
Proof.
  intros tk yerr s l g a E E' M b bufs bs Hu Ha Hc Hv (H1 & H2 & H3) Hcb.
  rewrite !(@document_observe tk _ g yerr M b bufs bs a Ha Hc). unfold doc_obs.
  destruct (tokenize tk bs) as [ts x] eqn:Ht. cbn [fst] in Hv.
  destruct E as [cb f st al], E' as [cb' f' st' al']. cbn [e_fmt e_store e_alloc e_cb] in *. subst f' st' al'.
  destruct (@twin_run g cb' cb f Hcb st al ts true (mkS (m_root (a_m a)) [[]] (m_log (a_m a)))) as [-> _]; auto.
  apply okst_start. apply (used_veil Hu).
Qed.

(** For yajl's tokens that is every text. *)
Lemma c49_callbacks_json : forall yerr s l g (a : api json_tk) E E' M b bufs bs,
  used yerr s l g a -> at_start a -> content M (b :: bufs) = Some bs ->
  other_callbacks E E' -> (forall c h T x, due c T x -> e_cb E' c h T x = e_cb E c h T x) ->
  observe (document E' g yerr M (b :: bufs) a) = observe (document E g yerr M (b :: bufs) a).
Proof. intros. eapply c49_callbacks; eauto. apply json_placed. Qed.

(** What parse() calls leave is what a run leaves. *)
Lemma parse_all_run (tk : tokenizer) E g yerr M b bufs bs (a a' : api tk) : at_start a -> content M (b :: bufs) = Some bs ->
  (parse_all E g yerr M (b :: bufs) a = AOk a' -> run E g (fst (tokens tk bs (tk_init tk))) (mkS (m_root (a_m a)) [[]] (m_log (a_m a))) = ROk (a_m a')) /\
  (forall e, parse_all E g yerr M (b :: bufs) a = AThrow e a' ->
     let r := run E g (fst (tokens tk bs (tk_init tk))) (mkS (m_root (a_m a)) [[]] (m_log (a_m a))) in r = ROk (a_m a') \/ exists x, r = RThrow x (a_m a')).
Proof.
  intros Ha Hc. pose proof (@parse_chunks tk E g yerr M b bufs bs a Hc) as Hp.
  set (a0 := mkApi (mkS (m_root (a_m a)) [[]] (m_log (a_m a))) (HLive tk (tk_init tk)) None false "").
  assert (Hs : same_but_data (do_reset a) a0).
  { destruct (do_reset_start Ha) as [H|[Hr H]]; auto. rewrite Hr in H. auto. }
  unfold parse_obs in Hp. pose proof (@feed_same tk E g bs _ _ Hs) as Hf.
  rewrite (@feed_run tk E g bs a0 (tk_init tk)) in Hf by reflexivity. cbn [a_m a0] in Hf.
  destruct (run E g (fst (tokens tk bs (tk_init tk))) (mkS (m_root (a_m a)) [[]] (m_log (a_m a)))) as [m|x m|u|]; cbn [ApiProofs.after] in Hf.
  - destruct (snd (tokens tk bs (tk_init tk))); destruct (feed E g bs (do_reset a)) as [q|q| |u'|]; try tauto;
      destruct Hf as (H1 & H2 & H3 & H4); cbn [a_m with_h with_m] in H1;
      (split; [intros Hx|intros e Hx]; rewrite Hx in Hp; cbn [observe] in Hp; try discriminate Hp; injection Hp as E1 E2 E3 E4; try (left); congruence).
  - destruct (feed E g bs (do_reset a)) as [q|q| |u'|]; try tauto.
    destruct Hf as (H1 & H2 & H3 & H4). cbn [a_m with_h with_m with_err] in H1.
    split; [intros Hx|intros e Hx]; rewrite Hx in Hp; cbn [observe] in Hp; try discriminate Hp. injection Hp as E0 E1 E2 E3 E4.
    right. exists x. congruence.
  - destruct (feed E g bs (do_reset a)) as [q|q| |u'|]; try tauto. split; [intros Hx|intros e Hx]; rewrite Hx in Hp; discriminate Hp.
  - destruct (feed E g bs (do_reset a)) as [q|q| |u'|]; try tauto. split; [intros Hx|intros e Hx]; rewrite Hx in Hp; discriminate Hp.
Qed.

(** The parsers that are reading a value, and the innermost one [top]: [waits] - its value
    has not begun.  The others, and all parsers around [top], are not set; nor is [top]
    once its value has begun, unless it skips values. *)
Definition veiled (waits : bool) (m : mstate) : Prop := forall top outer, m_stack m = top :: outer ->
  shut top (m_root m) /\
  (forall pi, In pi outer -> exists p, get pi (m_root m) = Some p /\ is_set p = false /\ get_value p = None /\ pop_value p = None) /\
  (waits = false -> exists p, get top (m_root m) = Some p /\ (is_set p = false \/ exists i, p = PIgn i)).

Lemma nested_outer top outer : nested (top :: outer) -> forall pi, In pi outer -> exists st rel, top = (pi ++ st :: rel)%list.
Proof.
  revert top. induction outer as [|q r IH]; intros top Hn pi Hin; [contradiction|]. destruct Hn as [(n & rel & ->) Hn].
  destruct Hin as [->|Hin]; [eauto|]. destruct (IH q Hn pi Hin) as (st & rel' & ->).
  exists st, (rel' ++ n :: rel)%list. rewrite <- app_assoc. reflexivity.
Qed.

Lemma okst_veiled g s w m : no_arr_uni s = true -> linv g s m -> okst g w m -> veiled w m.
Proof.
  intros Hs Hl (H1 & H2 & H3) top outer Hst. unfold topped in H3. rewrite Hst in *. destruct H3 as [H3 H4]. split; [exact H3|].
  pose proof (linv_stack Hl) as Ha. rewrite Hst in Ha. inversion Ha as [|x y (p & Hp & Hap) Hao]; subst. split.
  - intros pi Hin. rewrite Forall_forall in Hao. destruct (Hao pi Hin) as (q & Hq & _). exists q. split; auto.
    destruct (@nested_outer top outer H2 pi Hin) as (st & rel & ->).
    assert (Hf : is_set q = false) by (eapply H3; eauto). unfold pop_value, get_value. rewrite Hf. auto.
  - intros Hw. exists p. split; auto. destruct (H4 Hw p Hp) as [K|[K|K]]; auto. destruct K. apply att_disp. exact Hap.
Qed.

Lemma veiled_run tk yerr s l g (a : api tk) E ts : used yerr s l g a -> no_arr_uni s = true -> values_lead true ts ->
  match run E g ts (mkS (m_root (a_m a)) [[]] (m_log (a_m a))) with
  | ROk m => veiled (after_key true ts) m
  | RThrow _ m => veiled true m
  | _ => True
  end.
Proof.
  intros Hu Hs Hv. destruct (used_veil Hu) as (H1 & H2 & H3). destruct E as [cb f st al].
  set (s0 := mkS (m_root (a_m a)) [[]] (m_log (a_m a))).
  assert (Hl : linv g s s0).
  { split; auto. constructor; auto. exists (m_root (a_m a)). split; auto. }
  pose proof (@lrun_safe g (mkEnv cb f st al) s Hs ts s0 Hl) as K.
  destruct (@twin_run g cb cb f (fun c l T x _ => eq_refl) st al ts true s0 (okst_start _ _ H1) Hv) as [_ R].
  destruct (run (mkEnv cb f st al) g ts s0) as [m|x m|u|]; cbn [lsafe settled] in *; auto; (eapply okst_veiled; [exact Hs|apply K|exact R]).
Qed.

(** Between two parse() calls. *)
Lemma c49_between_calls : forall (tk : tokenizer) yerr s l g (a a' : api tk) E M b bufs bs,
  used yerr s l g a -> no_arr_uni s = true -> at_start a -> content M (b :: bufs) = Some bs ->
  values_lead true (fst (tokens tk bs (tk_init tk))) ->
  parse_all E g yerr M (b :: bufs) a = AOk a' ->
  veiled true (a_m a') /\
  (forall ts t, fst (tokens tk bs (tk_init tk)) = (ts ++ [t])%list -> (forall k, t <> TKey k) -> veiled false (a_m a')).
Proof.
  intros tk yerr s l g a a' E M b bufs bs Hu Hs Ha Hc Hv Hp.
  destruct (@parse_all_run tk E g yerr M b bufs bs a a' Ha Hc) as [R _]. specialize (R Hp).
  pose proof (@veiled_run tk yerr s l g a E _ Hu Hs Hv) as K. rewrite R in K. split.
  - intros top outer Hst. destruct (K top outer Hst) as (K1 & K2 & _). split; auto. split; auto. discriminate.
  - intros ts t Hts Ht. rewrite Hts in K. replace (after_key true (ts ++ [t])%list) with false in K; [exact K|].
    clear -Ht. generalize true. induction ts as [|u ts IH]; intros w; simpl.
    + destruct t; auto. destruct (Ht k eq_refl).
    + apply IH.
Qed.

(** After an error, in parse() or finish(). *)
Lemma c49_error : forall (tk : tokenizer) yerr s l g (a a' : api tk) E M b bufs bs e,
  used yerr s l g a -> no_arr_uni s = true -> at_start a -> content M (b :: bufs) = Some bs ->
  values_lead true (fst (tokenize tk bs)) ->
  document E g yerr M (b :: bufs) a = AThrow e a' -> veiled true (a_m a').
Proof.
  intros tk yerr s l g a a' E M b bufs bs e Hu Hs Ha Hc Hv Hd.
  pose proof (@document_observe tk E g yerr M b bufs bs a Ha Hc) as Ho. rewrite Hd in Ho. unfold doc_obs in Ho.
  pose proof (@veiled_run tk yerr s l g a E _ Hu Hs Hv) as K. destruct (tokenize tk bs) as [ts x]. cbn [fst] in *.
  destruct (run E g ts (mkS (m_root (a_m a)) [[]] (m_log (a_m a)))) as [m|y m|u|]; cbn [observe] in Ho; try discriminate Ho.
  - assert (Em : a_m a' = m).
    { destruct x; [destruct (empty_stack m)|]; try discriminate Ho; injection Ho as E0 E1 E2 E3 E4; exact E1. }
    rewrite Em. intros top outer Hst. destruct (K top outer Hst) as (K1 & K2 & _). split; auto. split; auto. discriminate.
  - injection Ho as E0 E1 E2 E3 E4. rewrite E1. exact K.
Qed.

(** For yajl's tokens: every text, whatever the bytes. *)
Lemma json_prefix bs : values_lead true (fst (tokens json_tk bs (tk_init json_tk))).
Proof.
  assert (H : pl true (Json.J [] EVal LNone)) by (split; simpl; auto). exact (proj1 (pl_tokens bs H)).
Qed.

Lemma c49_between_calls_json : forall yerr s l g (a a' : api json_tk) E M b bufs bs,
  used yerr s l g a -> no_arr_uni s = true -> at_start a -> content M (b :: bufs) = Some bs ->
  parse_all E g yerr M (b :: bufs) a = AOk a' ->
  veiled true (a_m a') /\
  (forall ts t, fst (tokens json_tk bs (tk_init json_tk)) = (ts ++ [t])%list -> (forall k, t <> TKey k) -> veiled false (a_m a')).
Proof. intros. eapply c49_between_calls; eauto. apply json_prefix. Qed.

Lemma c49_error_json : forall yerr s l g (a a' : api json_tk) E M b bufs bs e,
  used yerr s l g a -> no_arr_uni s = true -> at_start a -> content M (b :: bufs) = Some bs ->
  document E g yerr M (b :: bufs) a = AThrow e a' -> veiled true (a_m a').
Proof. intros. eapply c49_error; eauto. apply json_placed. Qed.
