(** Facts about parse() and finish() for arbitrary texts, callbacks and histories. *)

From Verif Require Import Spec Model Infra Total Safe Refine Main Api ApiProofs History.
Local Open Scope string_scope.
Set Implicit Arguments.

Section ApiFacts.
Variable tk : tokenizer.
Variable E : env.
Variable g : nat.
Variable yerr : list ascii -> string.
Notation api := (api tk).
Notation feed := (@feed tk E g).
Notation parse := (@parse tk E g yerr).
Notation finish := (@Api.finish tk E g yerr).
Notation parse_all := (@parse_all tk E g yerr).
Notation document := (@document tk E g yerr).
Notation do_reset := (@do_reset tk).
Notation do_op := (@do_op tk E g yerr).
Notation do_ops := (@do_ops tk E g yerr).

(** ** Chunking (C22) *)
Lemma chunks_parse M b bufs b1 bs a :
  content M (b :: bufs) = Some bs -> M b1 = Some bs ->
  observe (parse_all M (b :: bufs) a) = observe (parse M b1 a).
Proof.
  intros H H1. rewrite (parse_chunks E g yerr M b bufs a H). symmetry. apply parse_observe; auto.
Qed.

Lemma finish_same M M' a a' : same_but_data a a' ->
  match a_data a with Some (b, n) => exists x, M b = Some x /\ List.length x = n | None => True end ->
  match a_data a' with Some (b, n) => exists x, M' b = Some x /\ List.length x = n | None => True end ->
  observe (finish M a) = observe (finish M' a').
Proof.
  intros (H1 & H2 & H3 & H4) Hd Hd'. destruct (a_h a) as [st|] eqn:Hh.
  - rewrite (finish_observe E g yerr M a Hh Hd), (finish_observe E g yerr M' a' (eq_sym H2) Hd').
    rewrite H1, H4. reflexivity.
  - unfold Api.finish, complete. cbn [a_h with_reset]. rewrite Hh, <- H2. cbn [lift_y].
    destruct (@throw_live tk yerr M (with_reset a true)) as [t ->]; auto.
    destruct (@throw_live tk yerr M' (with_reset a' true)) as [t' ->]; auto.
    simpl. rewrite H1, H4, Hh, <- H2. reflexivity.
Qed.

Lemma chunks_document M b bufs b1 bs a :
  content M (b :: bufs) = Some bs -> M b1 = Some bs ->
  observe (document M (b :: bufs) a) = observe (document M [b1] a).
Proof.
  intros H H1. pose proof (@chunks_parse M b bufs b1 bs a H H1) as Hp.
  assert (H1' : content M [b1] = Some bs).
  { cbn [content fold_right]. rewrite H1, app_nil_r. auto. }
  assert (Hp' : observe (parse_all M [b1] a) = observe (parse M b1 a)).
  { cbn [Api.parse_all]. destruct (parse M b1 a); auto. }
  rewrite <- Hp' in Hp. unfold Api.document.
  destruct (parse_all M (b :: bufs) a) as [q|x q| |u|] eqn:E1;
    destruct (parse_all M [b1] a) as [q'|x' q'| |u'|] eqn:E2; cbn [observe] in *; try discriminate; auto.
  injection Hp as F1 F2 F3 F4.
  destruct (parse_all_data E g yerr M b bufs a H E1) as [D1 _].
  destruct (parse_all_data E g yerr M b1 [] a H1' E2) as [D2 _].
  apply finish_same; auto. unfold same_but_data; auto.
Qed.

(** ** finish() (C24) *)
Lemma empty_stack_iff m : empty_stack m = true <-> m_stack m = [].
Proof. unfold empty_stack. destruct (m_stack m); split; congruence. Qed.

Lemma finish_iff M a :
  (exists a', finish M a = AOk a') <->
  exists st ts st' m, a_h a = HLive tk st /\ tk_fin tk st = (ts, Some st') /\
                      run E g ts (a_m a) = ROk m /\ m_stack m = [].
Proof.
  split.
  - intros [a' H]. unfold Api.finish in H. destruct (a_h a) as [st|] eqn:Hh.
    + rewrite (@complete_run tk E g (with_reset a true) st) in H by auto. cbn [a_m with_reset] in H.
      destruct (tk_fin tk st) as [ts x] eqn:Hf. cbn [fst snd] in H. unfold after in H.
      destruct (run E g ts (a_m a)) as [m|e m|u|] eqn:Hr; cbn [lift_y] in H; try discriminate.
      * destruct x as [st'|]; cbn [lift_y] in H; [|exfalso; eapply throw_not_ok; eauto].
        exists st, ts, st', m. rewrite Hf. repeat split; auto.
        cbn [a_m with_h with_m] in H. destruct (empty_stack m) eqn:He; [|discriminate].
        apply empty_stack_iff; auto.
      * exfalso; eapply throw_not_ok; eauto.
    + unfold complete in H. cbn [a_h with_reset] in H. rewrite Hh in H. cbn [lift_y] in H.
      exfalso; eapply throw_not_ok; eauto.
  - intros (st & ts & st' & m & Hh & Hf & Hr & He). unfold Api.finish.
    rewrite (@complete_run tk E g (with_reset a true) st) by auto. cbn [a_m with_reset].
    rewrite Hf. cbn [fst snd]. rewrite Hr. cbn [after lift_y a_m with_h with_m].
    apply empty_stack_iff in He. rewrite He. eauto.
Qed.

Lemma document_iff M b bufs bs a : at_start a -> content M (b :: bufs) = Some bs ->
  (exists a', document M (b :: bufs) a = AOk a') <->
  exists ts st m, tokenize tk bs = (ts, Some st) /\
                  run E g ts (mkS (m_root (a_m a)) [[]] (m_log (a_m a))) = ROk m /\
                  m_stack m = [].
Proof.
  intros Ha Hc. pose proof (document_observe E g yerr M b bufs Ha Hc) as Ho.
  unfold doc_obs in Ho. destruct (tokenize tk bs) as [ts x].
  destruct (run E g ts (mkS (m_root (a_m a)) [[]] (m_log (a_m a)))) as [m|e m|u|] eqn:Hrun.
  - destruct x as [st|].
    + destruct (empty_stack m) eqn:He.
      * split; intros _.
        -- exists ts, st, m. repeat split; auto. apply empty_stack_iff; auto.
        -- destruct (document M (b :: bufs) a) as [q|x q| |u|]; cbn [observe] in Ho; try discriminate; eauto.
      * split.
        -- intros [a' Hd]. rewrite Hd in Ho. discriminate.
        -- intros (ts' & st' & m' & H1 & H2 & H3). inversion H1; subst. rewrite Hrun in H2. inversion H2; subst. apply empty_stack_iff in H3. congruence.
    + split.
      * intros [a' Hd]. rewrite Hd in Ho. discriminate.
      * intros (ts' & st' & m' & H1 & H2 & H3). inversion H1; subst; congruence.
  - split.
    + intros [a' Hd]. rewrite Hd in Ho. discriminate.
    + intros (ts' & st' & m' & H1 & H2 & H3). inversion H1; subst. congruence.
  - split.
    + intros [a' Hd]. rewrite Hd in Ho. discriminate.
    + intros (ts' & st' & m' & H1 & H2 & H3). inversion H1; subst; congruence.
  - split.
    + intros [a' Hd]. rewrite Hd in Ho. discriminate.
    + intros (ts' & st' & m' & H1 & H2 & H3). inversion H1; subst; congruence.
Qed.

(** ** After a rejected token (C25) *)
Lemma feed_err_dead bs : forall a a', feed bs a = YErr a' -> a_h a' = HDead tk.
Proof.
  intros a a'. destruct (a_h a) as [st|] eqn:Hh.
  - rewrite (feed_run E g bs _ Hh). unfold after. destruct (run E g _ (a_m a)).
    + destruct (snd _); intros H; inversion H; subst; auto.
    + intros H; inversion H; subst; auto.
    + discriminate.
    + discriminate.
  - destruct bs; simpl; rewrite Hh; intros H; inversion H; subst; auto.
Qed.

Lemma parse_throw_inv M b a e a' bs : M b = Some bs -> parse M b a = AThrow e a' ->
  exists q, feed bs (do_reset (mkApi (a_m a) (a_h a) (Some (b, List.length bs)) (a_reset a) (a_err a))) = YErr q
            /\ a' = with_reset q true /\ pe_sj e = a_err q.
Proof.
  intros Hb. unfold Api.parse. rewrite Hb. set (a1 := mkApi _ _ _ _ _).
  destruct (feed bs (do_reset a1)) as [q|q| |u|]; cbn [lift_y]; try discriminate.
  intros H. apply throw_m in H. destruct H as [-> H]. exists q. auto.
Qed.

Lemma parse_throw_dead M b a e a' : parse M b a = AThrow e a' ->
  a_h a' = HDead tk /\ a_reset a' = true /\ a_err a' = pe_sj e.
Proof.
  destruct (M b) as [bs|] eqn:Hb; [|unfold Api.parse; rewrite Hb; discriminate].
  intros H. destruct (parse_throw_inv M b a Hb H) as (q & Hf & -> & Hs).
  apply feed_err_dead in Hf. auto.
Qed.

Lemma dead_finish M a e a' : a_h a = HDead tk -> finish M a = AThrow e a' ->
  pe_sj e = a_err a /\ a_m a' = a_m a /\ a_h a' = HDead tk /\ a_err a' = a_err a /\ a_reset a' = true.
Proof.
  intros Hh H. unfold Api.finish, complete in H. cbn [a_h with_reset] in H. rewrite Hh in H.
  cbn [lift_y] in H. apply throw_m in H. destruct H as [-> H]. simpl. auto.
Qed.

Lemma dead_finish_not_ok M a a' : a_h a = HDead tk -> finish M a <> AOk a'.
Proof.
  intros Hh H. unfold Api.finish, complete in H. cbn [a_h with_reset] in H. rewrite Hh in H.
  cbn [lift_y] in H. eapply throw_not_ok; eauto.
Qed.

(** finish() any number of times after a failed parse(): it never succeeds, calls
    no callback, changes no parser, and reports the same text. *)
Lemma finishes_after_error Ms : forall a, a_h a = HDead tk -> a_reset a = true ->
  forall a', do_ops (map OpFinish Ms) a = AOk a' ->
  a_m a' = a_m a /\ a_err a' = a_err a /\ a_h a' = HDead tk /\ a_reset a' = true.
Proof.
  induction Ms as [|M Ms IH]; intros a Hh Hr a' H; cbn [map Api.do_ops Api.do_op] in H.
  - inversion H; subst; auto.
  - destruct (finish M a) as [q|e q| |u|] eqn:Hf; try discriminate.
    + exfalso. eapply dead_finish_not_ok; eauto.
    + destruct (dead_finish M a Hh Hf) as (H1 & H2 & H3 & H4 & H5).
      destruct (IH q H3 H5 a' H) as (K1 & K2 & K3 & K4). repeat split; congruence.
Qed.

(** The text after a rejected token has no effect. *)
Lemma rest_ignored M b b' bs cs a e a' :
  M b = Some bs -> M b' = Some (bs ++ cs)%list -> parse M b a = AThrow e a' ->
  observe (parse M b' a) = observe (parse M b a).
Proof.
  intros Hb Hb' H. rewrite (parse_observe E g yerr M b a Hb), (parse_observe E g yerr M b' a Hb').
  pose proof (parse_observe E g yerr M b a Hb) as Ho. rewrite H in Ho. cbn [observe] in Ho.
  unfold parse_obs in *. rewrite feed_app. destruct (feed bs (do_reset a)); try discriminate; auto.
Qed.

(** ** Where error texts come from (C26) *)
Definition api_inv (a : api) : Prop :=
  a_reset a = false -> a_err a = "" /\ exists st, a_h a = HLive tk st.

Lemma api_inv_start p l : api_inv (start tk g p l).
Proof. intros _. simpl. eauto. Qed.

Lemma api_inv_reset a : api_inv a -> a_err (do_reset a) = "" /\ exists st, a_h (do_reset a) = HLive tk st.
Proof.
  intros H. unfold Api.do_reset. destruct (a_reset a) eqn:Hr; simpl; eauto.
Qed.

Lemma api_inv_parse M b a a' : api_inv a -> parse M b a = AOk a' -> api_inv a'.
Proof.
  intros Hi H. destruct (M b) as [bs|] eqn:Hb; [|unfold Api.parse in H; rewrite Hb in H; discriminate].
  destruct (parse_ok_inv E g yerr M b a Hb H) as [Hf _].
  set (a1 := mkApi (a_m a) (a_h a) (Some (b, List.length bs)) (a_reset a) (a_err a)) in *.
  assert (Hi1 : api_inv a1) by exact Hi.
  destruct (api_inv_reset Hi1) as [He [st Hst]].
  rewrite (feed_run E g bs _ Hst) in Hf. unfold after in Hf.
  destruct (run E g _ _); [destruct (snd _)| | |]; inversion Hf; subst; intros _; simpl; eauto.
Qed.

Lemma api_inv_finish M a a' : (finish M a = AOk a' \/ exists e, finish M a = AThrow e a') -> a_reset a' = true.
Proof.
  unfold Api.finish, complete, react. cbn [a_h with_reset].
  assert (Hr : forall ts (q : api), match deliver E g ts q with YOk q' | YErr q' => a_reset q' = a_reset q | _ => True end).
  { intros ts q. rewrite deliver_run. destruct (run E g ts (a_m q)); auto. }
  destruct (a_h a) as [st|].
  - specialize (Hr (fst (tk_fin tk st)) (with_reset a true)).
    destruct (deliver E g (fst (tk_fin tk st)) (with_reset a true)) as [q|q| |u|]; cbn [lift_y].
    + destruct (snd (tk_fin tk st)); cbn [lift_y].
      * cbn [a_m with_h]. destruct (empty_stack (a_m q)); intros [H|[e H]]; inversion H; subst; auto.
      * intros [H|[e H]]; [exfalso; eapply throw_not_ok; eauto|apply throw_m in H]. destruct H as [-> _]; auto.
    + intros [H|[e H]]; [exfalso; eapply throw_not_ok; eauto|apply throw_m in H]. destruct H as [-> _]; auto.
    + intros [H|[e H]]; discriminate.
    + intros [H|[e H]]; discriminate.
    + intros [H|[e H]]; discriminate.
  - cbn [lift_y]. intros [H|[e H]]; [exfalso; eapply throw_not_ok; eauto|apply throw_m in H]. destruct H as [-> _]; auto.
Qed.

Lemma api_inv_ops os : forall a a', api_inv a -> do_ops os a = AOk a' -> api_inv a'.
Proof.
  induction os as [|o os IH]; intros a a' Hi H; cbn [Api.do_ops] in H.
  - inversion H; subst; auto.
  - destruct (do_op o a) as [q|e q| |u|] eqn:Ho; try discriminate.
    + apply (IH q a'); auto. destruct o as [M b|M]; cbn [Api.do_op] in Ho.
      * eapply api_inv_parse; eauto.
      * intros Hr. rewrite (@api_inv_finish M a q) in Hr; [discriminate|auto].
    + apply (IH q a'); auto. destruct o as [M b|M]; cbn [Api.do_op] in Ho; intros Hr.
      * destruct (parse_throw_dead M b a Ho) as (_ & K & _). congruence.
      * rewrite (@api_inv_finish M a q) in Hr; [discriminate|eauto].
Qed.

(** The error of a parse() call after any history comes from the tokens of its
    own document: an exception raised by one of its tokens, or none (the text is
    empty) if the underlying parser rejected the text. *)
Lemma parse_error_text os p l M b bs a e a' :
  do_ops os (start tk g p l) = AOk a -> M b = Some bs -> parse M b a = AThrow e a' ->
  exists st ts x,
    (if a_reset a then st = tk_init tk else a_h a = HLive tk st) /\ tokens tk bs st = (ts, x) /\
    let m0 := if a_reset a then mkS (m_root (a_m a)) [[]] (m_log (a_m a)) else a_m a in
    ((exists m, run E g ts m0 = ROk m /\ x = None /\ a_m a' = m /\ pe_sj e = "") \/
     (exists exc m, run E g ts m0 = RThrow exc m /\ a_m a' = m /\ pe_sj e = caught exc)).
Proof.
  intros Hos Hb Hp. pose proof (api_inv_ops os (@api_inv_start p l) Hos) as Hi.
  destruct (parse_throw_inv M b a Hb Hp) as (q & Hf & -> & Hs).
  set (a1 := mkApi (a_m a) (a_h a) (Some (b, List.length bs)) (a_reset a) (a_err a)) in *.
  assert (Hi1 : api_inv a1) by exact Hi.
  destruct (api_inv_reset Hi1) as [He [st Hst]].
  rewrite (feed_run E g bs _ Hst) in Hf. exists st, (fst (tokens tk bs st)), (snd (tokens tk bs st)).
  assert (Hm : a_m (do_reset a1) = (if a_reset a then mkS (m_root (a_m a)) [[]] (m_log (a_m a)) else a_m a)).
  { unfold Api.do_reset. simpl. destruct (a_reset a); reflexivity. }
  split; [|split; [destruct (tokens tk bs st); reflexivity|]].
  - unfold Api.do_reset in Hst. simpl in Hst. destruct (a_reset a); simpl in Hst; [inversion Hst|]; auto.
  - cbn zeta. rewrite <- Hm. unfold after in Hf. destruct (run E g _ (a_m (do_reset a1))) as [m|exc m|u|]; try discriminate.
    + left. exists m. destruct (snd (tokens tk bs st)); inversion Hf; subst. simpl in *. repeat split; auto. congruence.
    + right. exists exc, m. inversion Hf; subst. simpl in *. auto.
Qed.

(** ** Buffers (C27) *)
Definition last_buffer (os : list op) : option (mem * nat) :=
  fold_left (fun acc o => match o with OpParse M b => Some (M, b) | OpFinish _ => acc end) os None.

Lemma data_do_reset a : a_data (do_reset a) = a_data a.
Proof. unfold Api.do_reset. destruct (a_reset a); auto. Qed.

Definition data_of (acc : option (mem * nat)) (d : option (nat * nat)) : Prop :=
  match acc with
  | None => d = None
  | Some (M, b) => exists bytes, M b = Some bytes /\ d = Some (b, List.length bytes)
  end.

Lemma complete_data (a : api) : match complete E g a with YOk q | YErr q => a_data q = a_data a | _ => True end.
Proof.
  unfold complete, react. destruct (a_h a) as [st|]; auto. rewrite deliver_run.
  destruct (run E g _ (a_m a)); auto. destruct (snd _); auto.
Qed.

Lemma finish_data M a a' : (finish M a = AOk a' \/ exists e, finish M a = AThrow e a') -> a_data a' = a_data a.
Proof.
  unfold Api.finish. pose proof (complete_data (with_reset a true)) as H.
  destruct (complete E g (with_reset a true)) as [q|q| |u|]; cbn [lift_y]; intros [K|[e K]]; try discriminate.
  - destruct (empty_stack (a_m q)); inversion K; subst; auto.
  - destruct (empty_stack (a_m q)); inversion K; subst; auto.
  - exfalso; eapply throw_not_ok; eauto.
  - apply throw_m in K. destruct K as [-> _]. auto.
Qed.

Lemma parse_data M b a a' bs : M b = Some bs ->
  (parse M b a = AOk a' \/ exists e, parse M b a = AThrow e a') -> a_data a' = Some (b, List.length bs).
Proof.
  intros Hb [H|[e H]].
  - destruct (parse_ok_inv E g yerr M b a Hb H) as [Hf _].
    match type of Hf with feed _ (do_reset ?q) = _ =>
      pose proof (yres_data E g bs (do_reset q)) as Hd; rewrite Hf in Hd; destruct Hd as [-> _];
      rewrite data_do_reset; reflexivity end.
  - destruct (parse_throw_inv M b a Hb H) as (q & Hf & -> & _).
    match type of Hf with feed _ (do_reset ?q) = _ =>
      pose proof (yres_data E g bs (do_reset q)) as Hd; rewrite Hf in Hd; destruct Hd as [Hd _];
      cbn [a_data with_reset]; rewrite Hd, data_do_reset; reflexivity end.
Qed.

Lemma ops_data os : forall acc a a', data_of acc (a_data a) -> do_ops os a = AOk a' ->
  data_of (fold_left (fun acc o => match o with OpParse M b => Some (M, b) | OpFinish _ => acc end) os acc) (a_data a').
Proof.
  induction os as [|o os IH]; intros acc a a' Hd H; cbn [Api.do_ops fold_left] in *.
  - inversion H; subst; auto.
  - assert (Hq : exists q, (do_op o a = AOk q \/ exists e, do_op o a = AThrow e q) /\ do_ops os q = AOk a').
    { destruct (do_op o a) as [q|e q| |u|] eqn:Ho; try discriminate; exists q; split; eauto. }
    destruct Hq as (q & Hq & Hr). eapply IH; [|exact Hr]. destruct o as [M b|M]; cbn [Api.do_op] in Hq.
    + destruct (M b) as [bs|] eqn:Hb.
      * cbn [data_of]. rewrite (parse_data M b a Hb Hq). eauto.
      * unfold Api.parse in Hq. rewrite Hb in Hq. destruct Hq as [Hq|[e Hq]]; discriminate.
    + rewrite (finish_data M a Hq). auto.
Qed.

(** A finish() after any history reads dead memory only if the buffer of the last
    parse() call is no longer alive with its size. *)
Lemma finish_buffer os p l M a :
  do_ops os (start tk g p l) = AOk a -> finish M a = AUB tk UBBuffer ->
  exists M0 b bytes, last_buffer os = Some (M0, b) /\ M0 b = Some bytes /\
    match M b with None => True | Some now => List.length now < List.length bytes end.
Proof.
  intros Hos Hf. pose proof (@ops_data os None (start tk g p l) a eq_refl Hos) as Hd.
  fold (last_buffer os) in Hd. unfold Api.finish in Hf.
  pose proof (complete_data (with_reset a true)) as Hc.
  destruct (complete E g (with_reset a true)) as [q|q| |u|]; cbn [lift_y] in Hf; try discriminate.
  - destruct (empty_stack (a_m q)); discriminate.
  - unfold throw_parsing_error in Hf. cbn [a_data with_reset] in Hc. rewrite Hc in Hf.
    destruct (last_buffer os) as [[M0 b]|]; cbn [data_of] in Hd; [|rewrite Hd in Hf; discriminate].
    destruct Hd as (bytes & Hb & Hda). rewrite Hda in Hf.
    exists M0, b, bytes. repeat split; auto.
    destruct (List.length bytes) as [|n] eqn:Hl; [discriminate|].
    destruct (M b) as [now|]; auto. destruct (Nat.leb (S n) (List.length now)) eqn:Hle; [discriminate|].
    apply Nat.leb_gt in Hle. auto.
Qed.

(** ** finish() again (C34) *)
Definition stable_end : Prop :=
  forall st ts st', tk_fin tk st = (ts, Some st') -> tk_fin tk st' = ([], Some st').

Lemma finish_twice M M' a a' : stable_end -> finish M a = AOk a' -> finish M' a' = AOk a'.
Proof.
  intros Hst H. pose proof (@api_inv_finish M a a' (or_introl H)) as Hr.
  assert (Hx : exists a', finish M a = AOk a') by eauto. apply finish_iff in Hx.
  destruct Hx as (st & ts & st' & m & Hh & Hf & Hrun & He).
  unfold Api.finish in H. rewrite (@complete_run tk E g (with_reset a true) st) in H by auto.
  rewrite Hf in H. cbn [fst snd a_m with_reset] in H. rewrite Hrun in H. cbn [after lift_y a_m with_h with_m] in H.
  pose proof He as He'. apply empty_stack_iff in He'. rewrite He' in H. inversion H; subst.
  unfold Api.finish. rewrite (@complete_run tk E g _ st') by reflexivity.
  rewrite (Hst _ _ _ Hf). cbn. destruct m as [rt sk lg]; simpl in *. subst. reflexivity.
Qed.

(** After finish(), whether it succeeded or not, and after a failed parse(), the
    next parse() starts a new document. *)
Lemma starts_after_finish M a a' :
  (finish M a = AOk a' \/ exists e, finish M a = AThrow e a') -> at_start a'.
Proof. intros H. left. eapply api_inv_finish; eauto. Qed.

Lemma starts_after_error M b a e a' : parse M b a = AThrow e a' -> at_start a'.
Proof. intros H. left. destruct (parse_throw_dead M b a H) as (_ & K & _). auto. Qed.

(** ** Nothing but ParsingError (C23) *)
Lemma ops_safe s os : no_arr_uni s = true -> forall a : api, m_ok g s (a_m a) ->
  match do_ops os a with
  | AOk a' | AThrow _ a' => m_ok g s (a_m a')
  | AUB _ u => u = UBBuffer
  | _ => False
  end.
Proof.
  intros Hs. induction os as [|o os IH]; intros a Hm; cbn [Api.do_ops]; auto.
  assert (H : match do_op o a with
              | AOk a' | AThrow _ a' => m_ok g s (a_m a')
              | AUB _ u => u = UBBuffer | _ => False end).
  { destruct o as [M b|M]; cbn [Api.do_op].
    - pose proof (parse_ok yerr E M b a Hs Hm) as H. destruct (parse M b a); tauto.
    - pose proof (finish_ok yerr E M a Hs Hm) as H. destruct (finish M a); tauto. }
  destruct (do_op o a) as [q|e q| |u|]; auto; exact (IH q H).
Qed.
End ApiFacts.
