(** Property theorems, part 3 (C21-C34 without C31), with their proofs. *)

From Verif Require Import Spec Model Infra Total Safe Refine Main Api ApiProofs History ApiFacts
  Outcome DenFacts Closed Accept Complete Order Calls Members Round Blank Access Findings.
Local Open Scope string_scope.
Set Implicit Arguments.

(** ** C21 *)

Lemma at_start_new (tk : tokenizer) g p l : at_start (start tk g p l).
Proof. right. auto. Qed.

(** Whatever the history, the next document has the outcome it has for a new
    Parser over a new parser object (callbacks are told the same history). *)
Lemma c21_like_new : forall (tk : tokenizer) g yerr P s (a : api tk) M b bufs j,
  reads g yerr s a M b bufs j -> supported j s = true ->
  doc g yerr P M b bufs a = doc g yerr P M b bufs (start tk g (mk s) (past a)).
Proof.
  intros tk g yerr P s a M b bufs j Hr Hs. rewrite (doc_expected P Hr Hs).
  assert (Hr' : reads g yerr s (start tk g (mk s) (past a)) M b bufs j).
  { destruct Hr as (_ & _ & H). split; [apply h_new|]. split; [apply at_start_new|auto]. }
  rewrite (doc_expected P Hr' Hs). reflexivity.
Qed.

Lemma ops_history (tk : tokenizer) E g yerr s os : clean s = true -> forall a a' : api tk,
  history g yerr s a -> do_ops E g yerr os a = AOk a' -> history g yerr s a'.
Proof.
  intros Hc. induction os as [|o os IH]; intros a a' Hh H; simpl in H.
  - inversion H; subst; auto.
  - destruct (do_op E g yerr o a) as [q|x q| |u|] eqn:Ho; try discriminate;
      apply (IH q a'); auto; destruct o as [M b|M]; simpl in Ho.
    + eapply h_parse; eauto.
    + eapply h_finish; eauto.
    + eapply h_parse; eauto.
    + eapply h_finish; eauto.
Qed.

(** In particular, for declarations without arrays, after any parse() and finish()
    calls, failed or not, with any texts and callbacks ([E]). *)
Lemma c21_after_errors : forall (tk : tokenizer) E g yerr P s l (os : list op) (a : api tk) M b bufs bs j st,
  clean s = true -> do_ops E g yerr os (start tk g (mk s) l) = AOk a -> at_start a ->
  content M (b :: bufs) = Some bs -> tokenize tk bs = (toks j, Some st) -> supported j s = true ->
  doc g yerr P M b bufs a = doc g yerr P M b bufs (start tk g (mk s) (past a)).
Proof.
  intros tk E g yerr P s l os a M b bufs bs j st Hc Ho Ha Hb Ht Hs.
  apply c21_like_new with (s := s) (j := j); auto. split; [|split; eauto].
  eapply ops_history; eauto. apply h_new.
Qed.

(** With arrays it is false: after "[a" was rejected, "[1]" is rejected; after "[{"
    was rejected, the bare scalar "1" is accepted. *)
Lemma c21_array_error_refuted :
  exists s, s = SArr true (SVal TyInt None) None /\
    (exists w, result (docs yes "[1]" (new s)) = Parsed [] w) /\
    (exists m, then_doc yes "[1]" (docs yes "[a" (new s)) = Failed [] m) /\
    (exists m, result (docs yes "1" (new s)) = Failed [] m) /\
    (exists w, then_doc yes "1" (docs yes "[{" (new s)) = Parsed [] w).
Proof.
  eexists. split; [reflexivity|].
  repeat match goal with |- _ /\ _ => split end; eexists; vm_compute; reflexivity.
Qed.

(** ** C22 *)
Lemma result_observe (tk : tokenizer) (r1 r2 : ares tk) : observe r1 = observe r2 -> result r1 = result r2.
Proof. destruct r1, r2; simpl; intros H; inversion H; subst; auto; congruence. Qed.

(** [observe]: all parser objects, the dispatcher, the callback history, the
    tokenizer, success or sjparserError() - everything but the text rendered by
    the underlying parser. *)
Lemma c22_chunks : forall (tk : tokenizer) E g yerr M b bufs b1 bs (a : api tk),
  content M (b :: bufs) = Some bs -> M b1 = Some bs ->
  observe (parse_all E g yerr M (b :: bufs) a) = observe (parse E g yerr M b1 a) /\
  observe (document E g yerr M (b :: bufs) a) = observe (document E g yerr M [b1] a) /\
  result (document E g yerr M (b :: bufs) a) = result (document E g yerr M [b1] a).
Proof.
  intros tk E g yerr M b bufs b1 bs a H1 H2. split; [|split].
  - eapply chunks_parse; eauto.
  - eapply chunks_document; eauto.
  - apply result_observe. eapply chunks_document; eauto.
Qed.

(** ** C23 *)

Lemma op_not_term (tk : tokenizer) E g yerr o (a : api tk) : do_op E g yerr o a <> ATerm tk.
Proof.
  assert (Hthrow : forall M (a : api tk), throw_parsing_error yerr M a <> ATerm tk).
  { intros M q. unfold throw_parsing_error. destruct (a_data q) as [[b [|n]]|]; try discriminate.
    destruct (M b); [|discriminate]. destruct (Nat.leb _ _); discriminate. }
  destruct o as [M b|M]; simpl.
  - unfold parse. destruct (M b) as [bs|]; [|discriminate].
    set (q := do_reset _). destruct (a_h q) as [st|] eqn:Hh.
    + rewrite (feed_run E g bs q Hh). unfold ApiProofs.after.
      destruct (run E g _ _) as [m|e m|u|] eqn:R; simpl; try discriminate; try apply Hthrow.
      destruct (snd _); simpl; [discriminate|apply Hthrow].
    + destruct bs; simpl; rewrite Hh; simpl; apply Hthrow.
  - unfold Api.finish. destruct (a_h (with_reset a true)) as [st|] eqn:Hh.
    + rewrite (complete_run E g _ Hh). unfold ApiProofs.after.
      destruct (run E g _ _) as [m|e m|u|] eqn:R; simpl; try discriminate; try apply Hthrow.
      destruct (snd _); simpl; [destruct (empty_stack m); discriminate|apply Hthrow].
    + unfold complete. rewrite Hh. simpl. apply Hthrow.
Qed.

(** For every declaration and every history: no exception leaves the noexcept
    function that passes tokens on (which would be std::terminate). *)
Lemma c23_no_terminate : forall (tk : tokenizer) E g yerr p l (os : list op),
  do_ops E g yerr os (start tk g p l) <> ATerm tk.
Proof.
  intros tk E g yerr p l os. generalize (start tk g p l).
  induction os as [|o os IH]; intros a; simpl; [discriminate|].
  pose proof (@op_not_term tk E g yerr o a) as H. destruct (do_op E g yerr o a); try discriminate; auto.
Qed.

(** With live buffers and no Union as array element, every call returns or throws
    ParsingError. *)
Lemma c23_only_parsing_error : forall (tk : tokenizer) E g yerr s l (os : list op) (a : api tk) M b,
  no_arr_uni s = true -> do_ops E g yerr os (start tk g (mk s) l) = AOk a -> M b <> None ->
  match parse E g yerr M b a with
  | AOk _ | AThrow _ _ => True
  | _ => False
  end.
Proof.
  intros tk E g yerr s l os a M b Hs H Hb.
  pose proof (@ops_safe tk E g yerr s os Hs _ (m_ok_new tk g s l)) as X. rewrite H in X.
  pose proof (@parse_ok tk g yerr E s M b a Hs X) as Y.
  destruct (parse E g yerr M b a) as [q|x q| |u|] eqn:Hp; auto. subst u.
  unfold parse in Hp. destruct (M b) as [bs|] eqn:Hm; [|congruence].
  set (a1 := mkApi _ _ _ _ _) in Hp.
  assert (Hd : match feed E g bs (do_reset a1) with YOk a' | YErr a' => a_data a' = Some (b, List.length bs) | _ => True end).
  { pose proof (@yres_data tk E g bs (do_reset a1)) as D. destruct (feed E g bs (do_reset a1)); auto;
      destruct D as [-> _]; apply data_do_reset. }
  destruct (feed E g bs (do_reset a1)) as [q|q| | |]; simpl in Hp; try discriminate.
  destruct (@throw_live tk yerr M (with_reset q true)) as (t & Ht).
  - simpl. rewrite Hd. eauto.
  - rewrite Ht in Hp. discriminate.
Qed.

(** The text: the what() of the std::exception, or "Unknown exception", raised by
    a token of this call; or nothing, if the underlying parser rejects the text. *)
Lemma c23_error_text : forall (tk : tokenizer) E g yerr p l (os : list op) (a : api tk) M b x a',
  do_ops E g yerr os (start tk g p l) = AOk a -> parse E g yerr M b a = AThrow x a' ->
  pe_sj x = "" \/
  exists ts m0 e m, run E g ts m0 = RThrow e m /\ a_m a' = m /\
    pe_sj x = match e with XStd msg => c_str msg | XOther => "Unknown exception" end.
Proof.
  intros tk E g yerr p l os a M b x a' Ho Hp.
  destruct (M b) as [bs|] eqn:Hb; [|unfold parse in Hp; rewrite Hb in Hp; discriminate].
  destruct (@parse_error_text tk E g yerr os p l M b bs a x a' Ho Hb Hp) as (st & ts & y & _ & _ & [(m & _ & _ & _ & H)|(e & m & H1 & H2 & H3)]); auto.
  right. eexists ts, _, e, m. split; [exact H1|]. split; auto.
Qed.

(** ** C24 *)
Lemma c24_finish_accepts : forall (tk : tokenizer) E g yerr M b bufs bs (a : api tk),
  at_start a -> content M (b :: bufs) = Some bs ->
  ((exists a', document E g yerr M (b :: bufs) a = AOk a') <->
   exists ts st m,
     (* the underlying parser accepts the text, reporting the tokens ts, *)
     tokenize tk bs = (ts, Some st) /\
     (* no token is rejected, *)
     run E g ts (mkS (m_root (a_m a)) [[]] (m_log (a_m a))) = ROk m /\
     (* and every parser has ended *)
     m_stack m = []).
Proof. intros tk E g yerr M b bufs bs a Ha Hc. apply document_iff; auto. Qed.

Lemma c24_finish_state : forall (tk : tokenizer) E g yerr M (a : api tk),
  ((exists a', Api.finish E g yerr M a = AOk a') <->
   exists st ts st' m, a_h a = HLive tk st /\ tk_fin tk st = (ts, Some st') /\
                       run E g ts (a_m a) = ROk m /\ m_stack m = []).
Proof. intros. apply finish_iff. Qed.

(** ** C25 *)

(** After a failed parse(): any number of finish() calls fail with the same
    message, and neither change a parser nor call a callback. *)
Lemma c25_finish_after_error : forall (tk : tokenizer) E g yerr M b (a : api tk) x a' (Ms : list mem),
  parse E g yerr M b a = AThrow x a' ->
  (forall a2, do_ops E g yerr (map OpFinish Ms) a' = AOk a2 ->
     a_m a2 = a_m a' /\
     forall M2, (forall q, Api.finish E g yerr M2 a2 <> AOk q) /\
                (forall y q, Api.finish E g yerr M2 a2 = AThrow y q -> pe_sj y = pe_sj x /\ a_m q = a_m a')).
Proof.
  intros tk E g yerr M b a x a' Ms Hp a2 Ho. destruct (@parse_throw_dead _ _ _ _ _ _ _ _ _ Hp) as (H1 & H2 & H3).
  destruct (@finishes_after_error tk E g yerr Ms a' H1 H2 a2 Ho) as (G1 & G2 & G3 & G4).
  split; auto. intros M2. split.
  - intros q. apply dead_finish_not_ok; auto.
  - intros y q Hq. destruct (@dead_finish tk E g yerr M2 a2 y q G3 Hq) as (K1 & K2 & _). split; congruence.
Qed.

(** Text after the one that made parse() fail has no effect. *)
Lemma c25_rest_ignored : forall (tk : tokenizer) E g yerr M b b' bs cs (a : api tk) x a',
  M b = Some bs -> M b' = Some (bs ++ cs)%list -> parse E g yerr M b a = AThrow x a' ->
  observe (parse E g yerr M b' a) = observe (parse E g yerr M b a).
Proof. intros. eapply rest_ignored; eauto. Qed.

(** A rejected token is the last one: the tokens before it were accepted, and the
    machine is left as that token left it, whatever tokens follow in the text. *)
Lemma c25_tokens_stop : forall E g ts t rest m m1 e m2,
  run E g ts m = ROk m1 -> dispatch E g t m1 = RThrow e m2 ->
  run E g (ts ++ t :: rest) m = RThrow e m2.
Proof.
  intros E g ts t rest. induction ts as [|t' ts IH]; intros m m1 e m2 H1 H2; simpl in *.
  - inversion H1; subst. rewrite H2. reflexivity.
  - destruct (dispatch E g t' m); simpl in *; try discriminate. eauto.
Qed.

(** ** C26 *)
Lemma c26_document_error : forall (tk : tokenizer) E g yerr M b bufs bs (a : api tk) x a',
  at_start a -> content M (b :: bufs) = Some bs -> document E g yerr M (b :: bufs) a = AThrow x a' ->
  let r := run E g (fst (tokenize tk bs)) (mkS (m_root (a_m a)) [[]] (m_log (a_m a))) in
  match snd (tokenize tk bs) with
  | None => (exists m, r = ROk m /\ pe_sj x = "") \/ (exists e m, r = RThrow e m /\ pe_sj x = caught e)
  | Some _ => (exists m, r = ROk m /\ m_stack m <> [] /\ pe_sj x = msg_stack_left) \/
              (exists e m, r = RThrow e m /\ pe_sj x = caught e)
  end.
Proof.
  intros tk E g yerr M b bufs bs a x a' Ha Hc H.
  pose proof (document_observe E g yerr M b bufs Ha Hc) as Ho. rewrite H in Ho. unfold doc_obs in Ho. cbn [observe] in Ho.
  destruct (tokenize tk bs) as [ts [st|]]; cbn [fst snd]; cbn zeta; destruct (run E g ts _) as [m|e m|u|]; try discriminate.
  - destruct (empty_stack m) eqn:Es; [discriminate|]. injection Ho as E1 _ _ _ _. left. exists m. split; [auto|]. split; [|auto].
    intros Hn. apply empty_stack_iff in Hn. congruence.
  - injection Ho as E1 _ _ _ _. right. eauto.
  - injection Ho as E1 _ _ _ _. left. eauto.
  - injection Ho as E1 _ _ _ _. right. eauto.
Qed.

(** The same for a parse() call anywhere in any history: the error comes from the
    tokens of the text given since the document began. *)
Lemma c26_parse_error : forall (tk : tokenizer) E g yerr (os : list op) p l M b bs (a : api tk) x a',
  do_ops E g yerr os (start tk g p l) = AOk a -> M b = Some bs -> parse E g yerr M b a = AThrow x a' ->
  exists st ts y,
    (if a_reset a then st = tk_init tk else a_h a = HLive tk st) /\ tokens tk bs st = (ts, y) /\
    let m0 := if a_reset a then mkS (m_root (a_m a)) [[]] (m_log (a_m a)) else a_m a in
    ((exists m, run E g ts m0 = ROk m /\ y = None /\ a_m a' = m /\ pe_sj x = "") \/
     (exists e m, run E g ts m0 = RThrow e m /\ a_m a' = m /\ pe_sj x = caught e)).
Proof. intros. eapply parse_error_text; eauto. Qed.

(** what() is the underlying parser's text if there is no own one. *)
Lemma c26_what : forall x : perr,
  (pe_sj x = "" -> pe_what x = c_str (pe_yajl x)) /\ (pe_sj x <> "" -> pe_what x = c_str (pe_sj x)).
Proof.
  intros x. unfold pe_what. split; intros H.
  - rewrite H. reflexivity.
  - apply String.eqb_neq in H. rewrite H. reflexivity.
Qed.

(** ** C27 *)
Lemma c27_live_buffer_safe : forall (tk : tokenizer) E g yerr (os : list op) p l M (a : api tk),
  do_ops E g yerr os (start tk g p l) = AOk a ->
  (forall M0 b bytes, last_buffer os = Some (M0, b) -> M0 b = Some bytes ->
     exists now, M b = Some now /\ List.length bytes <= List.length now) ->
  Api.finish E g yerr M a <> AUB tk UBBuffer.
Proof.
  intros tk E g yerr os p l M a Ho Hl H.
  destruct (@finish_buffer tk E g yerr os p l M a Ho H) as (M0 & b & bytes & H1 & H2 & H3).
  destruct (Hl M0 b bytes H1 H2) as (now & Hn & Hle). rewrite Hn in H3. lia.
Qed.

Lemma c27_freed_buffer_refuted :
  exists s text a, parse (lift yes) 0 ye (mem_of [text]) 0 (new s) = AOk a /\
    Api.finish (lift yes) 0 ye (fun _ => None) a = AUB toy UBBuffer /\
    exists x q, Api.finish (lift yes) 0 ye (mem_of [text]) a = AThrow x q.
Proof.
  exists arr_int, "[1". pose proof b6_dangling_buffer as H.
  destruct (parse (lift yes) 0 ye (mem_of ["[1"]) 0 (new arr_int)) as [a| | | |]; try contradiction.
  exists a. split; auto. destruct H as [H1 H2]. split; auto.
  destruct (Api.finish (lift yes) 0 ye (mem_of ["[1"]) a); try contradiction. eauto.
Qed.

(** ** C28 *)

(** [ids j s]: the callbacks of the entities of [j], in the order in which they
    end, none for nulls and empty objects (Order.v). *)
Lemma c28_callback_order : forall (tk : tokenizer) g yerr P s (a : api tk) M b bufs j,
  reads g yerr s a M b bufs j -> supported j s = true ->
  match doc g yerr P M b bufs a with
  | Parsed l _ => exists evs, l = (past a ++ evs)%list /\ map ev_id evs = ids j s
  | Failed l _ => exists evs rest, l = (past a ++ evs)%list /\ ids j s = (map ev_id evs ++ rest)%list
  | Broken => False
  end.
Proof.
  intros tk g yerr P s a M b bufs j Hr Hs. rewrite (doc_expected P Hr Hs).
  destruct (callback_order P j s (past a)) as (evs & H1 & H2).
  destruct (den P j s (past a)) as [l [e|w]]; simpl in *; eauto.
  destruct H2 as (rest & H2). eauto.
Qed.

(** ** C29 *)

(** In every parse() and finish() call, from any state: [calls l l' r] - history
    [l'] is [l] and further invocations, all of which returned true except maybe
    the last one, which ended with [r].  If [r] is not "true" then the call fails
    with the error that stands for [r] ([refusal]: for "false" it tells element
    callbacks from finish callbacks). *)
Lemma c29_false_stops : forall (tk : tokenizer) E g yerr (o : op) (a : api tk),
  match do_op E g yerr o a with
  | AOk a' => calls E (m_log (a_m a)) (m_log (a_m a')) CTrue
  | AThrow x a' =>
      exists r, calls E (m_log (a_m a)) (m_log (a_m a')) r /\
                (r = CTrue \/ exists e, cb_error (refusal (m_log (a_m a'))) r e /\ pe_sj x = caught e)
  | _ => True
  end.
Proof. intros. apply op_calls. Qed.

(** ** C30 *)
Lemma c30_constructs_iff : forall fmtd s,
  (exists p, build fmtd s = inr p) <->
  (forall c ms i j mi mj, part c s -> members_of c = Some ms -> i < j ->
     nth_error ms i = Some mi -> nth_error ms j = Some mj ->
     ~ same_name (m_name (fst mj)) (m_name (fst mi))).
Proof.
  intros fmtd s. unfold build. split.
  - intros (p & H) c ms i j mi mj Hc Hm Hlt Hi Hj. destruct (ctor_exn fmtd s) eqn:Q; [discriminate|].
    intros Heq.
    rewrite ctor_none in Q. apply (Q c ms i Hc Hm). exists j, mi, mj. auto.
  - intros H. assert (Q : ctor_exn fmtd s = None).
    { apply ctor_none. intros c ms i Hc Hm (j & mi & mj & Hlt & Hi & Hj & Heq).
      exact (H c ms i j mi mj Hc Hm Hlt Hi Hj Heq). }
    rewrite Q. eauto.
Qed.

(** The message: in the first object or union in construction order that has equal
    names, the name of the last member whose name occurs again after it. *)
Lemma c30_message : forall fmtd s e, build fmtd s = inl e ->
  exists c ms i mi, part c s /\ members_of c = Some ms /\
    (forall mp, In mp ms -> exists p, build fmtd (snd mp) = inr p) /\
    nth_error ms i = Some mi /\ repeated ms i /\ (forall i', i < i' -> ~ repeated ms i') /\
    e = XStd ("Member " ++ fmt_scalar fmtd (m_name (fst mi)) ++ " appears more, than once").
Proof.
  intros fmtd s e H. unfold build in H. destruct (ctor_exn fmtd s) as [x|] eqn:Q; [|discriminate].
  inversion H; subst. apply ctor_some in Q. destruct Q as (c & ms & Hc & Hm & Hk & Hd).
  destruct (dup_some _ _ Hd) as (i & mi & H1 & H2 & H3 & H4).
  exists c, ms, i, mi. repeat match goal with |- _ /\ _ => split end; auto.
  intros mp Hin. unfold build. rewrite (Hk mp Hin). eauto.
Qed.

(** ** C32 *)
Lemma c32_stack_in_declaration : forall (tk : tokenizer) E g yerr s l (os : list op) (a : api tk),
  no_arr_uni s = true -> do_ops E g yerr os (start tk g (mk s) l) = AOk a ->
  schema_of (m_root (a_m a)) = s /\
  forall pi, In pi (m_stack (a_m a)) -> exists p, get pi (m_root (a_m a)) = Some p /\ disp_of p = Some g.
Proof.
  intros tk E g yerr s l os a Hs H.
  pose proof (@ops_safe tk E g yerr s os Hs _ (m_ok_new tk g s l)) as X. rewrite H in X.
  destruct X as [X1 X2 X3 X4]. split; auto. intros pi Hin. rewrite Forall_forall in X4.
  destruct (X4 pi Hin) as (p & Hp & Ha). exists p. split; auto. apply att_disp; auto.
Qed.

(** ** C33 *)

(** A parser object without arrays in any state at all, given to a new Parser:
    documents have the outcome they have for a new object. *)
Lemma c33_reattached : forall (tk : tokenizer) g yerr P p l M b bufs bs j st,
  clean (schema_of p) = true ->
  content M (b :: bufs) = Some bs -> tokenize tk bs = (toks j, Some st) -> supported j (schema_of p) = true ->
  doc g yerr P M b bufs (start tk g p l) = doc g yerr P M b bufs (start tk g (mk (schema_of p)) l).
Proof.
  intros tk g yerr P p l M b bufs bs j st Hc Hb Ht Hs.
  assert (Hr : reads g yerr (schema_of p) (start tk g p l) M b bufs j).
  { split; [apply h_attach; auto|]. split; [apply at_start_new|eauto]. }
  rewrite (c21_like_new P Hr Hs). reflexivity.
Qed.

(** ... and no call uses a bad dispatcher pointer, whatever is parsed. *)
Lemma c33_reattached_safe : forall (tk : tokenizer) E g yerr p l (os : list op) u,
  clean (schema_of p) = true -> do_ops E g yerr os (start tk g p l) <> AUB tk (UBDisp u).
Proof.
  intros tk E g yerr p l os u Hc H.
  assert (Hs : no_arr_uni (schema_of p) = true) by auto using no_arr_no_arr_uni, clean_no_arr.
  pose proof (@ops_safe tk E g yerr _ os Hs _ (@m_ok_attach tk g _ p l Hc eq_refl)) as X.
  rewrite H in X. discriminate.
Qed.

(** With arrays it is false: the element parser keeps the old dispatcher. *)
Lemma c33_array_refuted :
  exists s a, docs yes "[[1]]" (new s) = AOk a /\
    document (lift yes) 1 ye (mem_of ["[~"]) [0] (start toy 1 (m_root (a_m a)) (m_log (a_m a))) =
    AUB toy (UBDisp DanglingDispatcher).
Proof.
  exists arr_arr. pose proof b8_dangling_dispatcher as H.
  destruct (docs yes "[[1]]" (new arr_arr)) as [a| | | |] eqn:Q; try contradiction.
  exists a. split; [reflexivity|exact H].
Qed.

(** ** C34 *)

(** [stable_end]: completing a completed text changes nothing in the underlying
    parser. *)
Lemma c34_finish_twice : forall (tk : tokenizer) E g yerr M M' (a a' : api tk),
  (forall st ts st', tk_fin tk st = (ts, Some st') -> tk_fin tk st' = ([], Some st')) ->
  Api.finish E g yerr M a = AOk a' -> Api.finish E g yerr M' a' = AOk a'.
Proof. intros tk E g yerr M M' a a' Hst H. exact (@finish_twice tk E g yerr M M' a a' Hst H). Qed.

(** After finish() and after a failed parse() the next parse() begins with the
    root parser alone on the dispatcher's stack and a new tokenizer: what it does
    depends on the parser objects and the callback history only. *)
Lemma c34_next_document : forall (tk : tokenizer) E g yerr M b bs (a q a' : api tk),
  (exists M0, Api.finish E g yerr M0 a = AOk a' \/ exists e, Api.finish E g yerr M0 a = AThrow e a') \/
  (exists M0 b0 e, parse E g yerr M0 b0 a = AThrow e a') ->
  m_root (a_m q) = m_root (a_m a') -> m_log (a_m q) = m_log (a_m a') -> m_stack (a_m q) = [[]] ->
  a_h q = HLive tk (tk_init tk) -> a_err q = "" -> a_reset q = false ->
  M b = Some bs -> observe (parse E g yerr M b a') = observe (parse E g yerr M b q).
Proof.
  intros tk E g yerr M b bs a q a' Ha Hroot Hlog Hst Hh He Hrs Hb.
  rewrite !(parse_observe E g yerr M _ _ Hb).
  assert (Hr : a_reset a' = true).
  { destruct Ha as [(M0 & H)|(M0 & b0 & e & H)].
    - eapply api_inv_finish; eauto.
    - eapply parse_throw_dead in H. tauto. }
  unfold parse_obs. unfold do_reset at 1. rewrite Hr. unfold do_reset. rewrite Hrs.
  pose proof (@feed_same tk E g bs (mkApi (dispatcher_reset (a_m a')) (HLive tk (tk_init tk)) (a_data a') false "") q) as F.
  assert (Hs : same_but_data (mkApi (dispatcher_reset (a_m a')) (HLive tk (tk_init tk)) (a_data a') false "") q).
  { repeat split; simpl; auto. unfold dispatcher_reset, set_stack. destruct (a_m q); simpl in *. congruence. }
  specialize (F Hs).
  destruct (feed E g bs _) as [x|x| | |], (feed E g bs q) as [y|y| | |]; try contradiction; auto;
    destruct F as (F1 & F2 & F3 & F4); congruence.
Qed.
