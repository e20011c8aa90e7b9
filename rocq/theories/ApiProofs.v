(** Proofs about the YajlParser state machine. *)

From Verif Require Import Spec Model Infra Total Safe Refine Main Api.
Local Open Scope string_scope.
Set Implicit Arguments.

Section ApiProofs.
Variable tk : tokenizer.
Variable E : env.
Variable g : nat.
Variable yerr : list ascii -> string.
Notation api := (api tk).
Notation deliver := (@deliver tk E g).
Notation feed := (@feed tk E g).
Notation parse := (@parse tk E g yerr).
Notation finish := (@Api.finish tk E g yerr).
Notation parse_all := (@parse_all tk E g yerr).
Notation document := (@document tk E g yerr).
Notation do_reset := (@do_reset tk).

(** sjparserError() for an exception of a token parser or callback. *)
Definition caught (e : exn) : string :=
  match e with XStd m => c_str m | XOther => "Unknown exception" end.

Lemma catch_caught e : catch on_handlers e = Some (caught e).
Proof. destruct e; reflexivity. Qed.

(** The reaction to a token sequence, then tokenizer status [x]. *)
Definition after (r : res) (x : option (tk_st tk)) (a : api) : yres tk :=
  match r with
  | ROk m =>
      match x with
      | Some st => YOk (with_h (with_m a m) (HLive tk st))
      | None => YErr (with_h (with_m a m) (HDead tk))
      end
  | RThrow e m => YErr (with_h (with_err (with_m a m) (caught e)) (HDead tk))
  | RUB u => YUB tk u
  | RFuel => YFuel tk
  end.

Lemma deliver_run ts : forall a,
  deliver ts a =
  match run E g ts (a_m a) with
  | ROk m => YOk (with_m a m)
  | RThrow e m => YErr (with_h (with_err (with_m a m) (caught e)) (HDead tk))
  | RUB u => YUB tk u
  | RFuel => YFuel tk
  end.
Proof.
  induction ts as [|t ts IH]; intros a; cbn [Api.deliver run].
  - destruct a; reflexivity.
  - unfold on_token. destruct (dispatch E g t (a_m a)) as [m|e m|u|]; cbn [bind]; auto;
      [|rewrite catch_caught; auto].
    rewrite IH. cbn [a_m with_m]. destruct (run E g ts m); reflexivity.
Qed.

Lemma react_run x a : react E g x a = after (run E g (fst x) (a_m a)) (snd x) a.
Proof.
  unfold react. rewrite deliver_run. destruct (run E g (fst x) (a_m a)); auto.
Qed.

Lemma feed_run bs : forall a st, a_h a = HLive tk st ->
  feed bs a = after (run E g (fst (tokens tk bs st)) (a_m a)) (snd (tokens tk bs st)) a.
Proof.
  induction bs as [|b bs IH]; intros a st Hh.
  - simpl. rewrite Hh. f_equal. destruct a; simpl in *; subst; reflexivity.
  - cbn [Api.feed tokens]. rewrite Hh, react_run.
    destruct (tk_byte tk st b) as [ts [st'|]] eqn:Hb; cbn [fst snd].
    + destruct (tokens tk bs st') as [ts' x] eqn:Ht; cbn [fst snd].
      rewrite run_app. destruct (run E g ts (a_m a)) as [m|e m|u|]; cbn [bind after]; auto.
      rewrite (IH _ st') by reflexivity. rewrite Ht; cbn [fst snd a_m with_h with_m].
      destruct (run E g ts' m); simpl; auto; destruct x; reflexivity.
    + destruct (run E g ts (a_m a)); reflexivity.
Qed.

Lemma complete_run a st : a_h a = HLive tk st ->
  complete E g a = after (run E g (fst (tk_fin tk st)) (a_m a)) (snd (tk_fin tk st)) a.
Proof. intros H. unfold complete. rewrite H. apply react_run. Qed.

Lemma tokens_app bs cs : forall st,
  tokens tk (bs ++ cs) st =
  match tokens tk bs st with
  | (ts, None) => (ts, None)
  | (ts, Some st') => let (ts', x) := tokens tk cs st' in ((ts ++ ts')%list, x)
  end.
Proof.
  induction bs as [|b bs IH]; intros st; cbn [tokens app].
  - destruct (tokens tk cs st); reflexivity.
  - destruct (tk_byte tk st b) as [ts [st'|]]; auto. rewrite IH.
    destruct (tokens tk bs st') as [ts1 [st1|]]; auto.
    destruct (tokens tk cs st1). rewrite app_assoc. reflexivity.
Qed.

Lemma feed_app bs cs : forall a,
  feed (bs ++ cs) a = match feed bs a with YOk a' => feed cs a' | x => x end.
Proof.
  induction bs as [|b bs IH]; intros a; cbn [Api.feed app].
  - destruct (a_h a) eqn:Hh; auto. destruct cs; simpl; rewrite Hh; auto.
  - destruct (a_h a); auto. destruct (react E g (tk_byte tk st b) a); auto.
Qed.

(** ** Observations: everything but the saved buffer and the texts made from it *)
Inductive obs_res :=
| ObsOk (m : mstate) (h : handle tk) (r : bool) (e : string)
| ObsThrow (sj : string) (m : mstate) (h : handle tk) (r : bool) (e : string)
| ObsTerm | ObsUB | ObsFuel.

Definition observe (r : ares tk) : obs_res :=
  match r with
  | AOk a => ObsOk (a_m a) (a_h a) (a_reset a) (a_err a)
  | AThrow e a => ObsThrow (pe_sj e) (a_m a) (a_h a) (a_reset a) (a_err a)
  | ATerm _ => ObsTerm
  | AUB _ _ => ObsUB
  | AFuel _ => ObsFuel
  end.

Definition same_but_data (a b : api) : Prop :=
  a_m a = a_m b /\ a_h a = a_h b /\ a_reset a = a_reset b /\ a_err a = a_err b.

Definition content (M : mem) (bufs : list nat) : option (list ascii) :=
  fold_right (fun b acc => match M b, acc with Some x, Some y => Some (x ++ y)%list | _, _ => None end)
             (Some []) bufs.

Lemma throw_live M (a : api) : match a_data a with Some (b, n) => exists x, M b = Some x /\ List.length x = n | None => True end ->
  exists t, throw_parsing_error yerr M a = AThrow (PErr (a_err a) t) a.
Proof.
  unfold throw_parsing_error. destruct (a_data a) as [[b n]|]; [|eauto].
  intros (x & Hx & Hn). destruct n; [eauto|]. rewrite Hx, Hn, Nat.leb_refl. eauto.
Qed.

Lemma yres_data bs : forall a,
  match feed bs a with YOk a' | YErr a' => a_data a' = a_data a /\ a_reset a' = a_reset a | _ => True end.
Proof.
  intros a. destruct (a_h a) as [st|] eqn:Hh.
  - rewrite (feed_run _ _ Hh). destruct (tokens tk bs st) as [ts x]; cbn [fst snd].
    unfold after. destruct (run E g ts (a_m a)); auto. destruct x; auto.
  - destruct bs; simpl; rewrite Hh; auto.
Qed.

(** Result of parse() in terms of the buffer's content. *)
Definition parse_obs (bs : list ascii) (a : api) : obs_res :=
  match feed bs (do_reset a) with
  | YOk a' => ObsOk (a_m a') (a_h a') (a_reset a') (a_err a')
  | YErr a' => ObsThrow (a_err a') (a_m a') (a_h a') true (a_err a')
  | YTerm _ => ObsTerm
  | YUB _ _ => ObsUB
  | YFuel _ => ObsFuel
  end.

Lemma feed_same bs : forall a b, same_but_data a b ->
  match feed bs a, feed bs b with
  | YOk a', YOk b' | YErr a', YErr b' => same_but_data a' b'
  | YUB _ u, YUB _ v => u = v
  | YTerm _, YTerm _ | YFuel _, YFuel _ => True
  | _, _ => False
  end.
Proof.
  intros a b (H1 & H2 & H3 & H4). destruct (a_h a) as [st|] eqn:Hh.
  - rewrite (feed_run _ _ Hh), (feed_run bs b (eq_sym H2)). rewrite H1.
    destruct (tokens tk bs st) as [ts x]; cbn [fst snd]. unfold after.
    destruct (run E g ts (a_m b)); auto.
    + destruct x; unfold same_but_data; simpl; auto.
    + unfold same_but_data; simpl; auto.
  - destruct bs; simpl; rewrite Hh, <- H2; unfold same_but_data; auto; repeat split; congruence.
Qed.

Lemma do_reset_same a b : same_but_data a b -> same_but_data (do_reset a) (do_reset b).
Proof.
  intros (H1 & H2 & H3 & H4). unfold Api.do_reset. rewrite <- H3.
  destruct (a_reset a) eqn:Hr; unfold same_but_data; simpl; rewrite ?H1; repeat split; auto; congruence.
Qed.

Lemma parse_obs_same bs a b : same_but_data a b -> parse_obs bs a = parse_obs bs b.
Proof.
  intros H. unfold parse_obs. pose proof (feed_same bs (do_reset_same H)) as F.
  destruct (feed bs (do_reset a)), (feed bs (do_reset b)); try tauto; auto;
    destruct F as (F1 & F2 & F3 & F4); rewrite ?F1, ?F2, ?F3, ?F4; auto.
Qed.

Lemma parse_observe M b a bs : M b = Some bs -> observe (parse M b a) = parse_obs bs a.
Proof.
  intros Hb. unfold Api.parse. rewrite Hb.
  set (a1 := mkApi (a_m a) (a_h a) (Some (b, List.length bs)) (a_reset a) (a_err a)).
  rewrite (@parse_obs_same bs a a1) by (unfold same_but_data; simpl; auto).
  unfold parse_obs. pose proof (yres_data bs (do_reset a1)) as Hd.
  assert (Hd1 : a_data (do_reset a1) = Some (b, List.length bs)).
  { unfold Api.do_reset. destruct (a_reset a1); reflexivity. }
  destruct (feed bs (do_reset a1)) as [a'|a'| |u|]; cbn [lift_y observe]; auto.
  destruct (@throw_live M (with_reset a' true)) as [t ->]; auto.
  destruct Hd as [Hd _]. cbn [a_data with_reset]. rewrite Hd, Hd1. eauto.
Qed.

Lemma content_cons M b bufs bs : content M (b :: bufs) = Some bs ->
  exists x y, M b = Some x /\ content M bufs = Some y /\ bs = (x ++ y)%list.
Proof.
  cbn [content fold_right]. fold (content M bufs).
  destruct (M b) as [x|]; [|discriminate]. destruct (content M bufs) as [y|]; [|discriminate].
  intros H; inversion H; subst; eauto.
Qed.

(** After a successful parse() no reset is pending. *)
Lemma parse_ok_inv M b a a' bs : M b = Some bs -> parse M b a = AOk a' ->
  feed bs (do_reset (mkApi (a_m a) (a_h a) (Some (b, List.length bs)) (a_reset a) (a_err a))) = YOk a'
  /\ a_reset a' = false.
Proof.
  intros Hb. unfold Api.parse. rewrite Hb.
  set (a1 := mkApi _ _ _ _ _). destruct (feed bs (do_reset a1)) as [x|x| |u|] eqn:Hf; cbn [lift_y]; intros H; try discriminate.
  - inversion H; subst. split; auto. pose proof (yres_data bs (do_reset a1)) as Hd. rewrite Hf in Hd.
    destruct Hd as [_ ->]. unfold Api.do_reset. destruct (a_reset a1) eqn:Hr; auto.
  - exfalso. destruct (@throw_live M (with_reset x true)) as [t Ht].
    + cbn [a_data with_reset]. pose proof (yres_data bs (do_reset a1)) as Hd. rewrite Hf in Hd.
      destruct Hd as [-> _]. unfold Api.do_reset. destruct (a_reset a1); simpl; eauto.
    + rewrite Ht in H. discriminate.
Qed.

(** ** Chunking *)
Theorem parse_chunks M b bufs bs a :
  content M (b :: bufs) = Some bs -> observe (parse_all M (b :: bufs) a) = parse_obs bs a.
Proof.
  revert b bs a. induction bufs as [|b' bufs IH]; intros b bs a Hc.
  - apply content_cons in Hc. destruct Hc as (x & y & Hx & Hy & ->). simpl in Hy. inversion Hy; subst.
    rewrite app_nil_r. rewrite <- (parse_observe M b a Hx). simpl. destruct (parse M b a); reflexivity.
  - apply content_cons in Hc. destruct Hc as (x & y & Hx & Hy & ->).
    cbn [Api.parse_all]. destruct (parse M b a) as [a'|z a'| |u|] eqn:Hp.
    + pose proof (parse_ok_inv M b a Hx Hp) as [Hf Hr].
      change (observe (parse_all M (b' :: bufs) a') = parse_obs (x ++ y) a).
      rewrite (IH _ _ a' Hy).
      set (a1 := mkApi (a_m a) (a_h a) (Some (b, List.length x)) (a_reset a) (a_err a)) in *.
      rewrite (@parse_obs_same (x ++ y) a a1) by (unfold same_but_data; simpl; auto).
      unfold parse_obs. rewrite feed_app, Hf.
      replace (do_reset a') with a' by (unfold Api.do_reset; rewrite Hr; auto). reflexivity.
    + pose proof (parse_observe M b a Hx) as Ho. rewrite Hp in Ho.
      unfold parse_obs in *. rewrite feed_app.
      destruct (feed x (do_reset a)) as [q|q| |u|]; cbn [observe] in *; try discriminate; auto.
    + pose proof (parse_observe M b a Hx) as Ho. rewrite Hp in Ho.
      unfold parse_obs in *. rewrite feed_app.
      destruct (feed x (do_reset a)) as [q|q| |v|]; cbn [observe] in *; try discriminate; auto.
    + pose proof (parse_observe M b a Hx) as Ho. rewrite Hp in Ho.
      unfold parse_obs in *. rewrite feed_app.
      destruct (feed x (do_reset a)) as [q|q| |v|]; cbn [observe] in *; try discriminate; auto.
    + pose proof (parse_observe M b a Hx) as Ho. rewrite Hp in Ho.
      unfold parse_obs in *. rewrite feed_app.
      destruct (feed x (do_reset a)) as [q|q| |v|]; cbn [observe] in *; try discriminate; auto.
Qed.

(** ** Whole documents *)

(** The state in which the next parse() starts a new document. *)
Definition at_start (a : api) : Prop :=
  a_reset a = true \/ (a_h a = HLive tk (tk_init tk) /\ a_err a = "" /\ m_stack (a_m a) = [[]]).

(** The outcome of a document whose text is [bs], from the machine's run on its tokens. *)
Definition doc_obs (bs : list ascii) (a : api) : obs_res :=
  let (ts, x) := tokenize tk bs in
  match run E g ts (mkS (m_root (a_m a)) [[]] (m_log (a_m a))) with
  | ROk m =>
      match x with
      | Some st =>
          if empty_stack m then ObsOk m (HLive tk st) true ""
          else ObsThrow msg_stack_left m (HLive tk st) true ""
      | None => ObsThrow "" m (HDead tk) true ""
      end
  | RThrow e m => ObsThrow (caught e) m (HDead tk) true (caught e)
  | RUB _ => ObsUB
  | RFuel => ObsFuel
  end.

Lemma do_reset_start a : at_start a ->
  same_but_data (do_reset a) (mkApi (mkS (m_root (a_m a)) [[]] (m_log (a_m a))) (HLive tk (tk_init tk)) None false "")
  \/ (a_reset a = false /\ same_but_data (do_reset a) (mkApi (mkS (m_root (a_m a)) [[]] (m_log (a_m a))) (HLive tk (tk_init tk)) None (a_reset a) "")).
Proof.
  intros [H|(H1 & H2 & H3)].
  - left. unfold Api.do_reset. rewrite H. unfold same_but_data; simpl. auto.
  - unfold Api.do_reset. destruct (a_reset a) eqn:Hr.
    + left. unfold same_but_data; simpl; auto.
    + right. split; auto. unfold same_but_data; simpl. rewrite H1, H2, Hr. repeat split; auto.
      destruct (a_m a) as [rt st lg]; simpl in *. subst; auto.
Qed.

Lemma finish_observe M a st :
  a_h a = HLive tk st ->
  match a_data a with Some (b, n) => exists x, M b = Some x /\ List.length x = n | None => True end ->
  observe (finish M a) =
  match run E g (fst (tk_fin tk st)) (a_m a) with
  | ROk m =>
      match snd (tk_fin tk st) with
      | Some st' =>
          if empty_stack m then ObsOk m (HLive tk st') true (a_err a)
          else ObsThrow msg_stack_left m (HLive tk st') true (a_err a)
      | None => ObsThrow (a_err a) m (HDead tk) true (a_err a)
      end
  | RThrow e m => ObsThrow (caught e) m (HDead tk) true (caught e)
  | RUB _ => ObsUB
  | RFuel => ObsFuel
  end.
Proof.
  intros Hh Hd. unfold Api.finish. rewrite (@complete_run _ st) by auto.
  unfold after. cbn [a_m with_reset].
  destruct (run E g (fst (tk_fin tk st)) (a_m a)) as [m|e m|u|]; auto.
  - destruct (snd (tk_fin tk st)) as [st'|]; cbn [lift_y].
    + cbn [a_m with_h with_m]. destruct (empty_stack m); reflexivity.
    + match goal with |- context [throw_parsing_error _ _ ?q] => destruct (@throw_live M q) as [t ->]; auto end.
  - cbn [lift_y].
    match goal with |- context [throw_parsing_error _ _ ?q] => destruct (@throw_live M q) as [t ->]; auto end.
Qed.

Lemma parse_all_data M b : forall bufs a bs a', content M (b :: bufs) = Some bs ->
  parse_all M (b :: bufs) a = AOk a' ->
  match a_data a' with Some (b, n) => exists x, M b = Some x /\ List.length x = n | None => True end /\
  a_reset a' = false.
Proof.
  intros bufs; revert b. induction bufs as [|b' bufs IH]; intros b a bs a' Hc Hp.
  - apply content_cons in Hc. destruct Hc as (x & y & Hx & Hy & ->). cbn [Api.parse_all] in Hp.
    destruct (parse M b a) as [a1| | | |] eqn:Hp1; try discriminate. inversion Hp; subst.
    destruct (parse_ok_inv M b a Hx Hp1) as [Hf Hr]. split; auto.
    match type of Hf with feed _ (do_reset ?q) = _ => pose proof (yres_data x (do_reset q)) as Hd; 
      rewrite Hf in Hd; destruct Hd as [-> _]; unfold Api.do_reset; destruct (a_reset q); simpl; eauto end.
  - apply content_cons in Hc. destruct Hc as (x & y & Hx & Hy & ->).
    change (match parse M b a with AOk a' => parse_all M (b' :: bufs) a' | x => x end = AOk a') in Hp.
    destruct (parse M b a) as [a1| | | |] eqn:Hp1; try discriminate. eauto.
Qed.

(** The two halves of a document. *)
Theorem document_observe M b bufs bs a :
  at_start a -> content M (b :: bufs) = Some bs ->
  observe (document M (b :: bufs) a) = doc_obs bs a.
Proof.
  intros Ha Hc. unfold Api.document, doc_obs, tokenize.
  pose proof (parse_chunks M b bufs a Hc) as Hp.
  set (a0 := mkApi (mkS (m_root (a_m a)) [[]] (m_log (a_m a))) (HLive tk (tk_init tk)) None false "").
  assert (Hs : same_but_data (do_reset a) a0).
  { destruct (do_reset_start Ha) as [H|[Hr H]]; auto. rewrite Hr in H. auto. }
  unfold parse_obs in Hp.
  pose proof (feed_same bs Hs) as Hf.
  rewrite (@feed_run bs a0 (tk_init tk)) in Hf by reflexivity. cbn [a_m a0] in Hf.
  destruct (tokens tk bs (tk_init tk)) as [ts x]; cbn [fst snd] in *.
  destruct (run E g ts (mkS (m_root (a_m a)) [[]] (m_log (a_m a)))) as [m|e m|u|] eqn:Hrun; cbn [after] in Hf.
  - destruct x as [st|].
    + destruct (feed bs (do_reset a)) as [q|q| |u|]; try tauto.
      destruct Hf as (H1 & H2 & H3 & H4). simpl in H1, H2, H3, H4. rewrite H1, H2, H3, H4 in Hp.
      destruct (parse_all M (b :: bufs) a) as [a'|z a'| |u|] eqn:Hpa; cbn [observe] in Hp; try discriminate.
      injection Hp as E1 E2 E3 E4.
      destruct (parse_all_data M b bufs a Hc Hpa) as [Hd Hr].
      rewrite (@finish_observe M a' st); auto. rewrite E1, E4.
      destruct (tk_fin tk st) as [ts2 x2]; cbn [fst snd].
      rewrite run_app, Hrun. cbn [bind].
      destruct (run E g ts2 m); auto.
    + rewrite Hrun. destruct (feed bs (do_reset a)) as [q|q| |u|]; try tauto.
      destruct Hf as (H1 & H2 & H3 & H4). simpl in H1, H2, H3, H4. rewrite H1, H2, H4 in Hp.
      destruct (parse_all M (b :: bufs) a) as [a'|z a'| |u|] eqn:Hpa; cbn [observe] in *; try discriminate.
      exact Hp.
  - assert (Hx : observe (parse_all M (b :: bufs) a) = ObsThrow (caught e) m (HDead tk) true (caught e)).
    { destruct (feed bs (do_reset a)) as [q|q| |u|]; try tauto.
      destruct Hf as (H1 & H2 & H3 & H4). simpl in H1, H2, H3, H4. rewrite H1, H2, H4 in Hp. auto. }
    destruct (parse_all M (b :: bufs) a) as [a'|z a'| |u|] eqn:Hpa; cbn [observe] in Hx; try discriminate.
    cbn [observe]. rewrite Hx. destruct x as [st|]; [destruct (tk_fin tk st)|]; rewrite ?run_app, Hrun; auto.
  - assert (Hx : observe (parse_all M (b :: bufs) a) = ObsUB).
    { destruct (feed bs (do_reset a)) as [q|q| |v|]; try tauto. }
    destruct (parse_all M (b :: bufs) a) as [a'|z a'| |v|] eqn:Hpa; cbn [observe] in Hx; try discriminate.
    cbn [observe]. destruct x as [st|]; [destruct (tk_fin tk st)|]; rewrite ?run_app, Hrun; auto.
  - assert (Hx : observe (parse_all M (b :: bufs) a) = ObsFuel).
    { destruct (feed bs (do_reset a)) as [q|q| |v|]; try tauto. }
    destruct (parse_all M (b :: bufs) a) as [a'|z a'| |v|] eqn:Hpa; cbn [observe] in Hx; try discriminate.
    cbn [observe]. destruct x as [st|]; [destruct (tk_fin tk st)|]; rewrite ?run_app, Hrun; auto.
Qed.
End ApiProofs.
