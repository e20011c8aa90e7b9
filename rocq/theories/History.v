(** Histories: what a parser object has been used for before the next document,
    and what it does with that document, at the level of parse()/finish(). *)

From Verif Require Import Spec Model Infra Total Safe Refine Main Api ApiProofs Depth Loose Arrays Callbacks.
Local Open Scope string_scope.
Set Implicit Arguments.

(** Declarations without arrays (and without Ignore, which cannot be declared
    through the public headers). *)
Fixpoint clean (s : schema) : bool :=
  match s with
  | SVal _ _ => true
  | SIgn | SArr _ _ _ => false
  | SMp _ e _ _ => clean e
  | SObj _ ms _ _ | SUni _ _ _ ms _ => forallb (fun mp => clean (snd mp)) ms
  end.

Lemma clean_no_arr s : clean s = true -> no_arr s = true.
Proof.
  induction s as [| | | ? ? ? ? IH | ? ? ? ? ? IH |] using schema_ind'; simpl; auto; try discriminate.
  - intros H. induction IH as [|mp r Hq _ IHr]; simpl in *; auto.
    apply andb_true_iff in H. rewrite Hq, IHr; tauto.
  - intros H. induction IH as [|mp r Hq _ IHr]; simpl in *; auto.
    apply andb_true_iff in H. rewrite Hq, IHr; tauto.
Qed.

Lemma clean_rdy p : forall r, clean (schema_of p) = true -> rdy r p.
Proof.
  induction p as [| | ? ? ? ? ? ? ? IH | ? ? ? ? ? ? ? IH | ? ? ? ? ? ? ? ? ? IH |]
    using parser_ind'; simpl; intros r H; auto; try discriminate.
  - fold (rdy_ms true). induction IH as [|mp q Hq _ IHq]; simpl in *; auto.
    apply andb_true_iff in H. destruct H; split; auto.
  - fold (rdy_ms true). induction IH as [|mp q Hq _ IHq]; simpl in *; auto.
    apply andb_true_iff in H. destruct H; split; auto.
Qed.

Lemma vdisp_unset c rel :
  match c with PVal b _ _ _ => b_disp b = None | _ => True end ->
  match unset_at c rel with PVal b _ _ _ => b_disp b = None | _ => True end.
Proof.
  intros H. destruct c;
    [ destruct rel as [|st rel]; [unfold unset_at; simpl; auto|rewrite unset_at_none; auto]
    | match goal with |- context [unset_at ?q rel] =>
        pose proof (le_unset_at 0 q rel) as L; inversion L; subst; auto end ..].
Qed.

(** pop() on any object of the tree. *)
Lemma rdy_unset_any r rel : forall p, rdy r p -> rdy r (unset_at p rel).
Proof.
  revert r. induction rel as [|st rel IH]; intros r p H.
  - unfold unset_at; simpl. destruct (stored p); auto using rdy_set_set.
  - destruct (child p st) as [c|] eqn:Hc.
    + erewrite unset_at_cons by eauto.
      destruct p; destruct st as [|n|]; simpl in Hc; try discriminate;
        try (destruct (nth_error ms n) as [mp|] eqn:Hn; inversion Hc; subst;
             simpl in *; fold (rdy_ms true) in *; apply rdy_ms_set_mem; auto;
             apply IH; eapply rdy_ms_nth; eauto).
      * inversion Hc; subst. simpl in *. destruct H as (H1 & H2 & H3). repeat split; auto.
        apply vdisp_unset; auto.
      * inversion Hc; subst. simpl in *. auto.
      * inversion Hc; subst. simpl in *. auto.
      * inversion Hc; subst. simpl in *. auto.
    + rewrite unset_at_none; auto.
Qed.

(** Declarations without Ignore, without unions as elements of arrays and without
    arrays as members of unions. *)
Fixpoint closable (s : schema) : bool :=
  match s with
  | SVal _ _ => true
  | SIgn => false
  | SArr _ e _ => (match e with SUni _ _ _ _ _ => false | _ => true end) && closable e
  | SMp _ e _ _ => closable e
  | SObj _ ms _ _ => forallb (fun mp => closable (snd mp)) ms
  | SUni _ _ _ ms _ =>
      forallb (fun mp => match snd mp with SArr _ _ _ => false | _ => true end && closable (snd mp)) ms
  end.

(** ']' is never the first token and never directly follows a key. *)
Definition in_order (ts : list token) : Prop :=
  forall before after, ts = (before ++ TArrEnd :: after)%list ->
    before <> [] /\ forall r k, before <> (r ++ [TKey k])%list.

(** All arrays are closed where the dispatcher stops taking the tokens [ts]:
    the tokens [ts1] are accepted, they contain as many '[' as ']', and they are all
    the tokens or the next one is rejected; or the next one is the last missing ']', and
    it is rejected by a callback rather than because it is not expected. *)
Definition all_closed (E : env) (g : nat) (ts : list token) (m : mstate) : Prop :=
  exists ts1 rest m1, ts = (ts1 ++ rest)%list /\ run E g ts1 m = ROk m1 /\
    ((opens ts1 = closes ts1 /\
      (rest = [] \/ exists t r e m2, rest = t :: r /\ dispatch E g t m1 = RThrow e m2)) \/
     (opens ts1 = S (closes ts1) /\
      exists r e m2, rest = TArrEnd :: r /\ dispatch E g TArrEnd m1 = RThrow e m2 /\
        e <> unexpected TArrEnd /\ e <> XStd msg_stack_empty)).

(** The user calls pop() on the parser at [rel] below the root. *)
Definition user_pop (tk : tokenizer) (rel : path) (a : api tk) : api tk :=
  mkApi (mkS (unset_at (m_root (a_m a)) rel) (m_stack (a_m a)) (m_log (a_m a)))
        (a_h a) (a_data a) (a_reset a) (a_err a).

(** The user calls setFinishCallback() or setElementCallback() on the parser at [pi]. *)
Definition user_set_callback (tk : tokenizer) (w : which) (pi : path) (c : option cbid) (a : api tk) : api tk :=
  mkApi (mkS (set_callback_at w pi c (m_root (a_m a))) (m_stack (a_m a)) (m_log (a_m a)))
        (a_h a) (a_data a) (a_reset a) (a_err a).

(** The histories of a Parser (with dispatcher [g]) over declaration [s] from which the
    library is expected to work:
    - a new Parser over a new parser object;
    - after a successfully parsed supported document (in any number of parse()
      calls), with any callbacks;
    - after any document, accepted or not, whatever the text and the callbacks, if all
      arrays were closed where it was rejected (and the declaration is [closable]);
    - after the user popped any value;
    - after the user replaced any callback: then [s] is the declaration with the new one;
    - a new Parser over the parser object of another Parser with such a history;
    - for declarations without arrays: a new Parser over a parser object in any
      state;
    - for declarations without arrays: after any parse() or finish() call,
      whatever the text and whether or not it failed, with any callbacks. *)
Inductive history (tk : tokenizer) (g : nat) (yerr : list ascii -> string) (s : schema) : api tk -> Prop :=
| h_new l : history g yerr s (start tk g (mk s) l)
| h_attach p l : clean s = true -> schema_of p = s -> history g yerr s (start tk g p l)
| h_again g0 a l : history g0 yerr s a -> history g yerr s (start tk g (m_root (a_m a)) l)
| h_document a P M b bufs bs j st a' :
    history g yerr s a ->
    content M (b :: bufs) = Some bs -> tokenize tk bs = (toks j, Some st) ->
    supported j s = true ->
    document (lift P) g yerr M (b :: bufs) a = AOk a' ->
    history g yerr s a'
| h_closed a E M b bufs bs a' :
    closable s = true -> history g yerr s a -> at_start a ->
    content M (b :: bufs) = Some bs -> in_order (fst (tokenize tk bs)) ->
    all_closed E g (fst (tokenize tk bs)) (dispatcher_reset (a_m a)) ->
    (document E g yerr M (b :: bufs) a = AOk a' \/ exists x, document E g yerr M (b :: bufs) a = AThrow x a') ->
    history g yerr s a'
| h_pop a rel : history g yerr s a -> history g yerr s (user_pop rel a)
| h_callback s0 a w pi c : history g yerr s0 a -> s = declare_at w pi c s0 ->
    history g yerr s (user_set_callback w pi c a)
| h_parse a E M b : clean s = true -> history g yerr s a ->
    forall a', (parse E g yerr M b a = AOk a' \/ exists e, parse E g yerr M b a = AThrow e a') ->
    history g yerr s a'
| h_finish a E M : clean s = true -> history g yerr s a ->
    forall a', (Api.finish E g yerr M a = AOk a' \/ exists e, Api.finish E g yerr M a = AThrow e a') ->
    history g yerr s a'.

(** *** Closed arrays *)
Lemma closable_no_arr_uni s : closable s = true -> no_arr_uni s = true.
Proof.
  induction s as [| ? e ? IH| | ? ? ? ? IH | ? ? ? ? ? IH |] using schema_ind'; simpl; auto.
  - intros H. apply andb_true_iff in H. destruct H as [H1 H2]. rewrite IH; auto. destruct e; auto; discriminate.
  - intros H. induction IH as [|mp r Hq _ IHr]; simpl in *; auto.
    apply andb_true_iff in H. rewrite Hq, IHr; tauto.
  - intros H. induction IH as [|mp r Hq _ IHr]; simpl in *; auto.
    apply andb_true_iff in H. destruct H as [H1 H2]. apply andb_true_iff in H1.
    rewrite Hq, IHr; tauto.
Qed.

Lemma opened_mk s : opened (mk s) = 0.
Proof.
  induction s as [| | | ? ms ? ? IH | ? ? ? ms ? IH |] using schema_ind'; simpl; auto.
  - rewrite map_map. simpl. induction IH as [|mp r H _ IHr]; simpl; auto. rewrite H, IHr. auto.
  - rewrite map_map. simpl. induction IH as [|mp r H _ IHr]; simpl; auto. rewrite H, IHr. auto.
Qed.

Lemma wf_mk s : closable s = true -> wf (mk s).
Proof.
  induction s as [| ? e ? IH| | ? ms ? ? IH | ? ? ? ms ? IH |] using schema_ind'; simpl; auto.
  - intros H. apply andb_true_iff in H. destruct H as [H1 H2]. split; auto. destruct e; simpl; auto; discriminate.
  - intros H. induction IH as [|mp r Hq _ IHr]; simpl in *; auto.
    apply andb_true_iff in H. destruct H. split; [apply Hq; auto|apply IHr; auto].
  - intros H. induction IH as [|mp r Hq _ IHr]; simpl in *; auto.
    apply andb_true_iff in H. destruct H as [H1 H2]. apply andb_true_iff in H1. destruct H1 as [H0 H1].
    split; [split; [apply Hq; auto|destruct (snd mp); simpl; auto; discriminate]|apply IHr; auto].
Qed.

Lemma closed_rdy p : forall r, closable (schema_of p) = true -> opened p = 0 -> wf p -> rdy r p.
Proof.
  induction p as [b t v cb|b sd st vals e cb IH|b st key vals e ecb cb IH|b k v ms ig ign cb IH|b st v t tm cur ms ig cb IH|i]
    using parser_ind'; intros r Hc Ho Hw; simpl in *; auto; try discriminate.
  - apply andb_true_iff in Hc. destruct Hc as [Hc1 Hc2]. destruct sd; [discriminate|]. destruct Hw as [Hw1 Hw2].
    split; auto.
  - fold (rdy_ms true). assert (Hs : list_sum (map (fun mp => opened (snd mp)) ms) = 0) by lia. clear Ho.
    induction IH as [|mp q Hq _ IHq]; simpl in *; auto.
    apply andb_true_iff in Hc. destruct Hc, Hw. split; [apply Hq; auto; lia|apply IHq; auto; lia].
  - fold (rdy_ms true). assert (Hs : list_sum (map (fun mp => opened (snd mp)) ms) = 0) by lia. clear Ho.
    induction IH as [|mp q Hq _ IHq]; simpl in *; auto.
    apply andb_true_iff in Hc. destruct Hc as [Hc0 Hc], Hw as [[Hw1 Hw2] Hw3].
    apply andb_true_iff in Hc0. destruct Hc0. split; [apply Hq; auto; lia|apply IHq; auto; lia].
Qed.

Lemma in_order_from ts : forall bad, (forall before after, ts = (before ++ TArrEnd :: after)%list ->
    (before = [] -> bad = false) /\ forall r k, before <> (r ++ [TKey k])%list) -> order_from bad ts.
Proof.
  induction ts as [|t ts IH]; intros bad H; simpl; auto. split.
  - intros ->. apply (H [] ts); auto.
  - apply IH. intros before after ->. destruct (H (t :: before) after eq_refl) as [_ H2]. split.
    + intros ->. destruct t; auto. exfalso. apply (H2 [] k). reflexivity.
    + intros r k ->. apply (H2 (t :: r) k). reflexivity.
Qed.

(** The tokens of a document. *)
Lemma opens_app a b : opens (a ++ b)%list = opens a + opens b.
Proof. unfold opens. rewrite filter_app, app_length. auto. Qed.
Lemma closes_app a b : closes (a ++ b)%list = closes a + closes b.
Proof. unfold closes. rewrite filter_app, app_length. auto. Qed.

Lemma toks_balanced j : opens (toks j) = closes (toks j).
Proof.
  induction j as [| |l IH|ps IH] using json_ind'; auto.
  - cbn [toks]. assert (K : opens (flat_map toks l) = closes (flat_map toks l)).
    { induction IH as [|x l Hx _ IHl]; auto. cbn [flat_map]. rewrite opens_app, closes_app. lia. }
    change (opens (TArrStart :: flat_map toks l ++ [TArrEnd])) with (S (opens (flat_map toks l ++ [TArrEnd])%list)).
    change (closes (TArrStart :: flat_map toks l ++ [TArrEnd])) with (closes (flat_map toks l ++ [TArrEnd])%list).
    rewrite opens_app, closes_app. change (opens [TArrEnd]) with 0. change (closes [TArrEnd]) with 1. lia.
  - cbn [toks]. set (f := fun kv : string * json => _).
    assert (K : opens (flat_map f ps) = closes (flat_map f ps)).
    { induction IH as [|x l Hx _ IHl]; auto. cbn [flat_map]. rewrite opens_app, closes_app.
      change (opens (f x)) with (opens (toks (snd x))). change (closes (f x)) with (closes (toks (snd x))). lia. }
    change (opens (TMapStart :: flat_map f ps ++ [TMapEnd])) with (opens (flat_map f ps ++ [TMapEnd])%list).
    change (closes (TMapStart :: flat_map f ps ++ [TMapEnd])) with (closes (flat_map f ps ++ [TMapEnd])%list).
    rewrite opens_app, closes_app. change (opens [TMapEnd]) with 0. change (closes [TMapEnd]) with 0. lia.
Qed.

Lemma toks_order j : forall bad rest, order_from false rest -> order_from bad (toks j ++ rest)%list.
Proof.
  induction j as [| |l IH|ps IH] using json_ind'; intros bad rest H.
  - simpl. split; auto. discriminate.
  - simpl. split; auto. discriminate.
  - cbn [toks]. rewrite <- app_comm_cons. cbn [order_from is_key]. split; [discriminate|].
    rewrite <- app_assoc. cbn [app]. assert (H' : order_from false (TArrEnd :: rest)) by (simpl; auto).
    revert H'. generalize (TArrEnd :: rest)%list. clear H. induction IH as [|x l Hx _ IHl]; intros r Hr; auto.
    cbn [flat_map]. rewrite <- app_assoc. apply Hx. apply IHl; auto.
  - cbn [toks]. rewrite <- app_comm_cons. cbn [order_from is_key]. split; [discriminate|].
    rewrite <- app_assoc. cbn [app]. assert (H' : order_from false (TMapEnd :: rest)) by (simpl; split; auto; discriminate).
    revert H'. generalize (TMapEnd :: rest)%list. clear H. induction IH as [|x l Hx _ IHl]; intros r Hr; auto.
    cbn [flat_map]. rewrite <- app_assoc. cbn [app order_from]. split; [discriminate|].
    apply Hx. apply IHl; auto.
Qed.

Lemma order_in ts1 : forall bad after, order_from bad (ts1 ++ TArrEnd :: after)%list ->
  (ts1 = [] -> bad = false) /\ forall r k, ts1 <> (r ++ [TKey k])%list.
Proof.
  induction ts1 as [|t ts1 IH]; intros bad after H; cbn [app order_from] in H; destruct H as [H1 H2].
  - split; [auto|]. intros [|] k Hx; discriminate.
  - destruct (IH _ _ H2) as [K1 K2]. split; [discriminate|]. intros [|x r] k Hx; injection Hx as -> ->.
    + specialize (K1 eq_refl). discriminate.
    + eapply K2; eauto.
Qed.

Lemma toks_in_order j : in_order (toks j).
Proof.
  intros before after He. pose proof (toks_order j true [] I) as K. rewrite app_nil_r, He in K.
  apply order_in in K. destruct K as [K1 K2]. split; auto. intros Hx. specialize (K1 Hx). discriminate.
Qed.

Section History.
Variable tk : tokenizer.
Variable g : nat.
Variable yerr : list ascii -> string.
Notation api := (api tk).

(** What [history] means for the root object. *)
Definition good (s : schema) (p : parser) : Prop :=
  schema_of p = s /\ att g p /\ rdy false p.

Lemma good_le s p p' : good s p -> le_p g p p' -> rdy false p' -> good s p'.
Proof.
  intros (H1 & H2 & H3) Hle Hr. repeat split; auto.
  - rewrite <- H1. symmetry. eapply le_schema; eauto.
  - eapply le_att; eauto.
Qed.

Lemma good_clean s p p' : clean s = true -> good s p -> le_p g p p' -> good s p'.
Proof.
  intros Hc Hg Hle. eapply good_le; eauto. apply clean_rdy.
  rewrite <- (le_schema Hle). destruct Hg as (-> & _). auto.
Qed.

(** *** The machine part of an API call is a run of tokens *)
Definition m_ok (s : schema) (m : mstate) : Prop := inv g s m.

Lemma run_m_ok E s ts m : no_arr_uni s = true -> m_ok s m ->
  match run E g ts m with
  | ROk m' | RThrow _ m' => m_ok s m' /\ le_p g (m_root m) (m_root m')
  | RUB _ => False
  | RFuel => False
  end.
Proof.
  intros Hs Hm. pose proof (@run_safe g E s Hs ts m Hm) as H.
  unfold safe in H. destruct (run E g ts m) eqn:Hr; auto. eapply run_total; eauto.
Qed.

Lemma m_ok_reset s a : m_ok s (a_m a) -> m_ok s (a_m (do_reset (tk:=tk) a)).
Proof.
  intros H. unfold do_reset. destruct (a_reset a); simpl; auto. apply inv_reset; auto.
Qed.

Lemma root_do_reset (a : api) : m_root (a_m (do_reset a)) = m_root (a_m a).
Proof. unfold do_reset. destruct (a_reset a); auto. Qed.

Lemma feed_ok E s bs (a : api) : no_arr_uni s = true -> m_ok s (a_m a) ->
  match feed E g bs a with
  | YOk a' | YErr a' => m_ok s (a_m a') /\ le_p g (m_root (a_m a)) (m_root (a_m a'))
  | _ => False
  end.
Proof.
  intros Hs Hm. destruct (a_h a) as [st|] eqn:Hh.
  - rewrite (feed_run E g bs _ Hh). pose proof (run_m_ok E (fst (tokens tk bs st)) Hs Hm) as H.
    unfold after. destruct (run E g _ (a_m a)); auto. destruct (snd (tokens tk bs st)); auto.
  - destruct bs; simpl; rewrite Hh; auto using le_refl.
Qed.

Lemma complete_ok E s (a : api) : no_arr_uni s = true -> m_ok s (a_m a) ->
  match complete E g a with
  | YOk a' | YErr a' => m_ok s (a_m a') /\ le_p g (m_root (a_m a)) (m_root (a_m a'))
  | _ => False
  end.
Proof.
  intros Hs Hm. destruct (a_h a) as [st|] eqn:Hh.
  - rewrite (complete_run E g _ Hh). pose proof (run_m_ok E (fst (tk_fin tk st)) Hs Hm) as H.
    unfold after. destruct (run E g _ (a_m a)); auto. destruct (snd (tk_fin tk st)); auto.
  - unfold complete. rewrite Hh. auto using le_refl.
Qed.

Lemma throw_m M (a : api) e a' : throw_parsing_error yerr M a = AThrow e a' ->
  a' = a /\ pe_sj e = a_err a.
Proof.
  unfold throw_parsing_error. destruct (a_data a) as [[b n]|]; [destruct n|].
  - intros H; inversion H; subst; auto.
  - destruct (M b); [destruct (Nat.leb _ _)|]; intros H; inversion H; subst; auto.
  - intros H; inversion H; subst; auto.
Qed.

Lemma throw_not_ok M (a : api) a' : throw_parsing_error yerr M a <> AOk a'.
Proof.
  unfold throw_parsing_error. destruct (a_data a) as [[b n]|]; [destruct n|]; try discriminate.
  destruct (M b); [destruct (Nat.leb _ _)|]; discriminate.
Qed.

Lemma throw_cases M (a : api) :
  (exists e, throw_parsing_error yerr M a = AThrow e a) \/ throw_parsing_error yerr M a = AUB tk UBBuffer.
Proof.
  unfold throw_parsing_error. destruct (a_data a) as [[b n]|]; [destruct n|]; eauto.
  destruct (M b); [destruct (Nat.leb _ _)|]; eauto.
Qed.

(** One API call, for a declaration without unions as array elements. *)
Lemma parse_ok E s M b (a : api) : no_arr_uni s = true -> m_ok s (a_m a) ->
  match parse E g yerr M b a with
  | AOk a' | AThrow _ a' => m_ok s (a_m a') /\ le_p g (m_root (a_m a)) (m_root (a_m a'))
  | AUB _ u => u = UBBuffer
  | _ => False
  end.
Proof.
  intros Hs Hm. unfold parse. destruct (M b) as [bytes|]; auto.
  set (a1 := mkApi _ _ _ _ _).
  assert (Hm1 : m_ok s (a_m (do_reset a1))) by (apply m_ok_reset; auto).
  pose proof (feed_ok E bytes _ Hs Hm1) as H. rewrite root_do_reset in H.
  destruct (feed E g bytes (do_reset a1)) as [q|q| |u|]; cbn [lift_y]; try exact H; try tauto.
  destruct (throw_cases M (with_reset q true)) as [[e ->]| ->]; [exact H|auto].
Qed.

Lemma finish_ok E s M (a : api) : no_arr_uni s = true -> m_ok s (a_m a) ->
  match Api.finish E g yerr M a with
  | AOk a' | AThrow _ a' => m_ok s (a_m a') /\ le_p g (m_root (a_m a)) (m_root (a_m a'))
  | AUB _ u => u = UBBuffer
  | _ => False
  end.
Proof.
  intros Hs Hm. unfold Api.finish.
  pose proof (complete_ok E (with_reset a true) Hs Hm) as H.
  destruct (complete E g (with_reset a true)) as [q|q| |u|]; cbn [lift_y]; try tauto.
  - destruct (empty_stack (a_m q)); exact H.
  - destruct (throw_cases M q) as [[e ->]| ->]; [exact H|auto].
Qed.

Lemma parse_all_ok E s M bufs : no_arr_uni s = true -> forall a : api, m_ok s (a_m a) ->
  match parse_all E g yerr M bufs a with
  | AOk a' | AThrow _ a' => m_ok s (a_m a') /\ le_p g (m_root (a_m a)) (m_root (a_m a'))
  | AUB _ u => u = UBBuffer
  | _ => False
  end.
Proof.
  intros Hs. induction bufs as [|b bufs IH]; intros a Hm; cbn [parse_all]; auto using le_refl.
  pose proof (parse_ok E M b a Hs Hm) as H.
  destruct (parse E g yerr M b a) as [q|e q| |u|]; auto.
  destruct H as [H1 H2]. specialize (IH q H1).
  destruct (parse_all E g yerr M bufs q); auto;
    destruct IH; split; auto; eapply le_trans; eauto.
Qed.

Lemma document_ok E s M bufs (a : api) : no_arr_uni s = true -> m_ok s (a_m a) ->
  match document E g yerr M bufs a with
  | AOk a' | AThrow _ a' => m_ok s (a_m a') /\ le_p g (m_root (a_m a)) (m_root (a_m a'))
  | AUB _ u => u = UBBuffer
  | _ => False
  end.
Proof.
  intros Hs Hm. unfold document. pose proof (parse_all_ok E M bufs Hs a Hm) as H.
  destruct (parse_all E g yerr M bufs a) as [q|e q| |u|]; auto.
  destruct H as [H1 H2]. pose proof (finish_ok E M q Hs H1) as H.
  destruct (Api.finish E g yerr M q); auto;
    destruct H; split; auto; eapply le_trans; eauto.
Qed.

(** The stack part of the invariant does not survive a history with arrays in
    general, but between documents it is not needed. *)
Lemma m_ok_good s m : m_ok s m -> clean s = true -> good s (m_root m).
Proof.
  intros [H1 H2 H3 H4] Hc. repeat split; auto. apply clean_rdy. rewrite H1; auto.
Qed.

Lemma m_ok_new s l : m_ok s (a_m (start tk g (mk s) l)).
Proof.
  unfold m_ok. simpl. rewrite <- (schema_mk s) at 1. apply inv_attach, okd_mk.
Qed.

Lemma m_ok_attach s p l : clean s = true -> schema_of p = s -> m_ok s (a_m (start tk g p l)).
Proof.
  intros Hc Hs. unfold m_ok. simpl. split; simpl.
  - rewrite schema_set_disp; auto.
  - apply okd_set_disp_no_arr. rewrite Hs. apply clean_no_arr; auto.
  - apply att_set_disp.
  - constructor; auto. eexists; split; [reflexivity|]. apply att_set_disp.
Qed.

Lemma m_ok_pop s rel (a : api) : m_ok s (a_m a) -> m_ok s (a_m (user_pop rel a)).
Proof.
  intros H. eapply inv_le_stack; [exact H| |]; simpl; auto. apply le_unset_at.
Qed.

End History.

(** What holds between documents, for declarations with arrays: no array is open. *)
Definition tidy (p : parser) : Prop := opened p = 0 /\ wf p.

Lemma tidy_set_disp d p : tidy p -> tidy (set_disp d p).
Proof. intros [H1 H2]. split; [rewrite opened_set_disp; auto|apply wf_set_disp; auto]. Qed.

Lemma tidy_start g s m : good g s (m_root m) -> tidy (m_root m) ->
  linv g s (dispatcher_reset m) /\ A 0 (dispatcher_reset m).
Proof.
  intros (H1 & H2 & _) [H3 H4]. split.
  - split; simpl; auto. constructor; auto. exists (m_root m). split; auto.
  - split; simpl; auto. lia.
Qed.

(** The machine: after tokens with all arrays closed, no array is open. *)
Lemma closed_run E g s ts m :
  closable s = true -> in_order ts -> good g s (m_root m) -> tidy (m_root m) ->
  all_closed E g ts (dispatcher_reset m) ->
  match run E g ts (dispatcher_reset m) with
  | ROk m' | RThrow _ m' => good g s (m_root m') /\ tidy (m_root m')
  | _ => True
  end.
Proof.
  intros Hc Ho Hg Ht (ts1 & rest & m1 & -> & Hr & Hx).
  destruct (@tidy_start g s m Hg Ht) as [Hl HA].
  assert (Hn : no_arr_uni s = true) by (apply closable_no_arr_uni; auto).
  assert (Hof : order_from true (ts1 ++ rest)%list).
  { apply in_order_from. intros before after He. destruct (Ho _ _ He) as [K1 K2]. split; auto. congruence. }
  destruct (@run_arrays E g s Hn ts1 rest true 0 _ m1 Hl HA (or_introl eq_refl) Hof Hr)
    as (Hl1 & bad & n & HA1 & Hb & Ho1 & Hsum).
  assert (Hfin : forall m2, linv g s m2 -> opened (m_root m2) = 0 -> wf (m_root m2) ->
    good g s (m_root m2) /\ tidy (m_root m2)).
  { intros m2 [K1 K2 K3] K4 K5. split; [|split; auto]. split; auto. split; auto. apply closed_rdy; auto.
    rewrite K1. auto. }
  rewrite run_app, Hr. cbn [bind].
  destruct Hx as [[Hbal [->|(t & r & e & m2 & -> & Hd)]]|(Hbal & r & e & m2 & -> & Hd & He1 & He2)].
  - cbn [run]. destruct HA1 as [K1 K2 _ _]. apply Hfin; auto. lia.
  - cbn [run]. rewrite Hd. cbn [bind]. pose proof (@ldispatch_safe g E s Hn t m1 Hl1) as Hs2. rewrite Hd in Hs2.
    destruct Hs2 as [Hl2 _]. assert (n = 0) as -> by lia.
    cbn [order_from] in Ho1. destruct Ho1 as [Ho1 _].
    assert (K : opened (m_root m2) <= 0 /\ (wf (m_root m2) \/ 1 <= opened (m_root m2))).
    { destruct (match t with TArrEnd => true | _ => false end) eqn:Hte.
      - assert (t = TArrEnd) as -> by (destruct t; auto; discriminate).
        rewrite (Ho1 eq_refl) in Hb. destruct Hb as [Hb|Hb]; [discriminate|].
        pose proof (@dispatch_end E g s 0 m1 Hl1 HA1 Hb) as K. rewrite Hd in K. tauto.
      - pose proof (@dispatch_arrays E g s 0 bad t m1 Hl1 HA1 Hb) as K. rewrite Hd in K.
        apply K. intros ->. discriminate. }
    apply Hfin; auto; [lia|]. destruct K as [K1 [K2|K2]]; auto. lia.
  - cbn [run]. rewrite Hd. cbn [bind]. pose proof (@ldispatch_safe g E s Hn TArrEnd m1 Hl1) as Hs2. rewrite Hd in Hs2.
    destruct Hs2 as [Hl2 _]. assert (n = 1) as -> by lia.
    cbn [order_from] in Ho1. destruct Ho1 as [Ho1 _]. rewrite (Ho1 eq_refl) in Hb. destruct Hb as [Hb|Hb]; [discriminate|].
    pose proof (@dispatch_end E g s 1 m1 Hl1 HA1 Hb) as K. rewrite Hd in K. destruct K as (K1 & K2 & K3).
    assert (opened (m_root m2) = 0).
    { destruct K3 as [K3|[K3|K3]]; [lia| |]; exfalso; [apply He1|apply He2]; exact K3. }
    apply Hfin; auto. destruct K2 as [K2|K2]; auto. lia.
Qed.

Lemma uncb_schema p : schema_of (uncb p) = uncb_s (schema_of p).
Proof.
  induction p as [| ? ? ? ? ? ? IH | ? ? ? ? ? ? ? IH | ? ? ? ? ? ? ? IH | ? ? ? ? ? ? ? ? ? IH |] using parser_ind'; simpl; try congruence.
  - f_equal. rewrite !map_map. simpl. induction IH as [|mp q Hq _ IHr]; simpl; congruence.
  - f_equal. rewrite !map_map. simpl. induction IH as [|mp q Hq _ IHr]; simpl; congruence.
Qed.

Lemma clean_uncb s : clean (uncb_s s) = clean s.
Proof.
  induction s as [| ? e ? IH| | ? ? ? ? IH | ? ? ? ? ? IH |] using schema_ind'; simpl; auto.
  - induction IH as [|mp r Hq _ IHr]; simpl; congruence.
  - induction IH as [|mp r Hq _ IHr]; simpl; congruence.
Qed.

Lemma closable_uncb s : closable (uncb_s s) = closable s.
Proof.
  induction s as [| ? e ? IH| | ? ? ? ? IH | ? ? ? ? ? IH |] using schema_ind'; simpl; auto.
  - rewrite IH. destruct e; reflexivity.
  - induction IH as [|mp r Hq _ IHr]; simpl; congruence.
  - induction IH as [|[m c] r Hq _ IHr]; simpl in *; auto. rewrite Hq, IHr. destruct c; reflexivity.
Qed.

Lemma good_uncb g s p p' : uncb p' = uncb p -> good g s p -> good g (schema_of p') p'.
Proof.
  intros H (H1 & H2 & H3). split; auto. split.
  - apply att_uncb. rewrite H. apply att_uncb; auto.
  - apply rdy_uncb. rewrite H. apply rdy_uncb; auto.
Qed.

Lemma m_ok_uncb g s m p' : uncb p' = uncb (m_root m) -> m_ok g s m ->
  m_ok g (schema_of p') (mkS p' (m_stack m) (m_log m)).
Proof.
  intros H [H1 H2 H3 H4]. split; simpl; auto.
  - apply okd_uncb. rewrite H. apply okd_uncb; auto.
  - apply att_uncb. rewrite H. apply att_uncb; auto.
  - eapply Forall_impl; [|exact H4]. intros pi. apply att_at_uncb; auto.
Qed.

Lemma tidy_uncb p p' : uncb p' = uncb p -> tidy p -> tidy p'.
Proof.
  intros H [H1 H2]. split; [rewrite <- opened_uncb, H, opened_uncb; auto|].
  apply wf_uncb. rewrite H. apply wf_uncb; auto.
Qed.

Lemma history_inv (tk : tokenizer) g yerr s (a : api tk) : history g yerr s a ->
  good g s (m_root (a_m a)) /\ (clean s = true -> m_ok g s (a_m a)) /\
  (clean s = false -> at_start a) /\
  (closable s = true -> clean s = false -> tidy (m_root (a_m a))).
Proof.
  induction 1 as [g yerr s l|g yerr s p l Hcl Hp|g yerr s g0 a l H IH|g yerr s a P M b bufs bs j st a' H IH Hc Ht Hs Hd
    |g yerr s a E M b bufs bs a' Hcl H IH Ha0 Hc Ho Hx Hd
    |g yerr s a rel H IH|g yerr s s0 a w pi c H IH ->|g yerr s a E M b Hcl H IH a' Hp|g yerr s a E M Hcl H IH a' Hp].
  - split; [|split; [|split]].
    + simpl. split; [rewrite schema_set_disp, schema_mk; auto|].
      split; [apply att_set_disp|apply rdy_set_disp, rdy_mk].
    + intros _. apply m_ok_new.
    + intros _. right. auto.
    + intros Hc _. simpl. apply tidy_set_disp. split; [apply opened_mk|apply wf_mk; auto].
  - pose proof (@m_ok_attach tk g s p l Hcl Hp) as Hm. split; [|split; [auto|split; congruence]].
    apply m_ok_good; auto.
  - destruct IH as (Hg & Hm & Ha & Hti). destruct Hg as (Hg1 & Hg2 & Hg3). split; [|split; [|split]].
    + simpl. split; [rewrite schema_set_disp; auto|]. split; [apply att_set_disp|apply rdy_set_disp; auto].
    + intros Hcl. apply m_ok_attach; auto.
    + intros _. right. auto.
    + intros Hc Hcl. simpl. apply tidy_set_disp; auto.
  - destruct IH as (Hg & Hm & Ha & Hti). destruct (clean s) eqn:Hcl.
    + assert (Hn : no_arr_uni s = true) by auto using no_arr_no_arr_uni, clean_no_arr.
      pose proof (document_ok yerr (lift P) M (b :: bufs) a Hn (Hm eq_refl)) as Hk. rewrite Hd in Hk.
      destruct Hk as [Hk1 Hk2]. split; [|split; [auto|split; discriminate]].
      eapply good_clean; eauto.
    + pose proof (document_observe (lift P) g yerr M b bufs (Ha eq_refl) Hc) as Ho.
      rewrite Hd in Ho. unfold doc_obs in Ho. rewrite Ht in Ho. cbn [observe] in Ho.
      pose proof Hg as (Hg1 & Hg2 & Hg3). pose proof Hs as Hs'. rewrite <- Hg1 in Hs'.
      pose proof (document_run P g j _ (m_log (a_m a)) Hs' Hg2 Hg3) as Hr. cbn zeta in Hr.
      destruct (den P j (schema_of (m_root (a_m a))) (m_log (a_m a))) as [l' [e|w]].
      * destruct Hr as (sx & Hr & _). rewrite Hr in Ho. discriminate.
      * destruct Hr as (p' & Hr & Hv & Hle & Hrd). rewrite Hr in Ho. cbn in Ho.
        injection Ho as E1 E2 E3 E4. rewrite E1.
        split; [|split; [discriminate|split; [intros _; left; auto|]]].
        -- eapply good_le; eauto. 
        -- intros Hcb _. pose proof (@closed_run (lift P) g s (toks j) (a_m a) Hcb (toks_in_order j) Hg (Hti Hcb eq_refl)) as K.
           change (dispatcher_reset (a_m a)) with (mkS (m_root (a_m a)) [[]] (m_log (a_m a))) in K.
           rewrite Hr in K. apply K. exists (toks j), [], (mkS p' [] l').
           split; [rewrite app_nil_r; auto|]. split; auto. left. split; auto using toks_balanced.
  - destruct IH as (Hg & Hm & Ha & Hti). destruct (clean s) eqn:Hcl'.
    + assert (Hn : no_arr_uni s = true) by auto using no_arr_no_arr_uni, clean_no_arr.
      pose proof (document_ok yerr E M (b :: bufs) a Hn (Hm eq_refl)) as Hk.
      assert (Hk' : m_ok g s (a_m a') /\ le_p g (m_root (a_m a)) (m_root (a_m a'))).
      { destruct Hd as [Hd|[x Hd]]; rewrite Hd in Hk; auto. }
      destruct Hk' as [Hk1 Hk2]. split; [eapply good_clean; eauto|split; [auto|split; discriminate]].
    + pose proof (document_observe E g yerr M b bufs Ha0 Hc) as Hob.
      pose proof (@closed_run E g s _ (a_m a) Hcl Ho Hg (Hti Hcl eq_refl) Hx) as K.
      unfold doc_obs in Hob.
      assert (Hres : (good g s (m_root (a_m a')) /\ tidy (m_root (a_m a'))) /\ a_reset a' = true).
      { destruct (tokenize tk bs) as [ts x]; cbn [fst] in *.
        change (mkS (m_root (a_m a)) [[]] (m_log (a_m a))) with (dispatcher_reset (a_m a)) in Hob.
        destruct (run E g ts (dispatcher_reset (a_m a))) as [m2|e m2|u|].
        - destruct Hd as [Hd|[y Hd]]; rewrite Hd in Hob; cbn [observe] in Hob;
            (destruct x as [st|]; [destruct (empty_stack m2)|]); try discriminate;
            injection Hob as E1 E2 E3 E4; try rewrite E1; auto; rewrite E2; auto.
        - destruct Hd as [Hd|[y Hd]]; rewrite Hd in Hob; cbn [observe] in Hob; try discriminate.
          injection Hob as E1 E2 E3 E4. rewrite E2; auto.
        - destruct Hd as [Hd|[y Hd]]; rewrite Hd in Hob; discriminate.
        - destruct Hd as [Hd|[y Hd]]; rewrite Hd in Hob; discriminate. }
      destruct Hres as [[K1 K2] K3]. split; [exact K1|]. split; [discriminate|]. split; [intros _; left; exact K3|]. auto.
  - destruct IH as (Hg & Hm & Ha & Hti). split; [|split; [|split]].
    + destruct Hg as (H1 & H2 & H3). eapply good_le; [repeat split; eauto|apply le_unset_at|].
      apply rdy_unset_any; auto.
    + intros Hcl. apply m_ok_pop; auto.
    + intros Hcl. destruct (Ha Hcl) as [?|(? & ? & ?)]; [left|right]; auto.
    + intros Hc Hcl. destruct (Hti Hc Hcl) as [K1 K2]. destruct (mild_unset_at (m_root (a_m a)) rel) as [_ K3 K4 _].
      split; simpl; [lia|auto].
  - destruct IH as (Hg & Hm & Ha & Hti). pose proof (uncb_set_at w pi c (m_root (a_m a))) as Hu.
    assert (Hsc : declare_at w pi c s0 = schema_of (set_callback_at w pi c (m_root (a_m a)))).
    { rewrite schema_set_at. destruct Hg as (-> & _). reflexivity. }
    assert (Hs0 : uncb_s (declare_at w pi c s0) = uncb_s s0).
    { rewrite Hsc, <- uncb_schema, Hu, uncb_schema. destruct Hg as (-> & _). reflexivity. }
    rewrite <- (clean_uncb (declare_at w pi c s0)), <- (closable_uncb (declare_at w pi c s0)), Hs0, clean_uncb, closable_uncb.
    split; [|split; [|split]].
    + rewrite Hsc. eapply good_uncb; eauto.
    + intros Hcl. rewrite Hsc. apply m_ok_uncb with (s := s0); auto.
    + intros Hcl. destruct (Ha Hcl) as [?|(? & ? & ?)]; [left|right]; auto.
    + intros Hc Hcl. eapply tidy_uncb; eauto.
  - destruct IH as (Hg & Hm & Ha & Hti).
    assert (Hn : no_arr_uni s = true) by auto using no_arr_no_arr_uni, clean_no_arr.
    pose proof (parse_ok yerr E M b a Hn (Hm Hcl)) as Hk.
    assert (Hk' : m_ok g s (a_m a') /\ le_p g (m_root (a_m a)) (m_root (a_m a'))).
    { destruct Hp as [Hp|[e Hp]]; rewrite Hp in Hk; auto. }
    destruct Hk' as [Hk1 Hk2]. split; [eapply good_clean; eauto|split; [auto|split; congruence]].
  - destruct IH as (Hg & Hm & Ha & Hti).
    assert (Hn : no_arr_uni s = true) by auto using no_arr_no_arr_uni, clean_no_arr.
    pose proof (finish_ok yerr E M a Hn (Hm Hcl)) as Hk.
    assert (Hk' : m_ok g s (a_m a') /\ le_p g (m_root (a_m a)) (m_root (a_m a'))).
    { destruct Hp as [Hp|[e Hp]]; rewrite Hp in Hk; auto. }
    destruct Hk' as [Hk1 Hk2]. split; [eapply good_clean; eauto|split; [auto|split; congruence]].
Qed.

(** *** The end-to-end theorem

    After any history, a document in the supported class given in any number of
    parse() calls and a finish() has exactly the outcome of [den]. *)
Theorem document_outcome (tk : tokenizer) g yerr s (a : api tk) P M b bufs bs j st :
  history g yerr s a -> at_start a ->
  content M (b :: bufs) = Some bs -> tokenize tk bs = (toks j, Some st) ->
  supported j s = true ->
  match den P j s (m_log (a_m a)) with
  | (l', inr w) =>
      exists a', document (lift P) g yerr M (b :: bufs) a = AOk a' /\
                 view_of (m_root (a_m a')) = w /\ m_log (a_m a') = l' /\
                 m_stack (a_m a') = [] /\ a_reset a' = true
  | (l', inl e) =>
      exists x a', document (lift P) g yerr M (b :: bufs) a = AThrow x a' /\
                   pe_sj x = caught e /\ m_log (a_m a') = l' /\ a_reset a' = true
  end.
Proof.
  intros Hh Ha Hc Ht Hs. destruct (history_inv Hh) as ((Hg1 & Hg2 & Hg3) & _).
  pose proof (document_observe (lift P) g yerr M b bufs Ha Hc) as Ho.
  unfold doc_obs in Ho. rewrite Ht in Ho.
  rewrite <- Hg1 in Hs. pose proof (document_run P g j _ (m_log (a_m a)) Hs Hg2 Hg3) as Hr. cbn zeta in Hr.
  rewrite Hg1 in Hr. destruct (den P j s (m_log (a_m a))) as [l' [e|w]].
  - destruct Hr as (sx & Hr & Hl). rewrite Hr in Ho.
    destruct (document (lift P) g yerr M (b :: bufs) a) as [q|x q| |u|]; cbn [observe] in Ho; try discriminate.
    injection Ho as E1 E2 E3 E4. exists x, q. repeat split; auto; congruence.
  - destruct Hr as (p' & Hr & Hv & Hle & Hrd). rewrite Hr in Ho. cbn in Ho.
    destruct (document (lift P) g yerr M (b :: bufs) a) as [q|x q| |u|]; cbn [observe] in Ho; try discriminate.
    injection Ho as E1 E2 E3 E4. exists q. repeat split; auto.
    + rewrite E1; auto.
    + rewrite E1; auto.
    + rewrite E1; auto.
Qed.
