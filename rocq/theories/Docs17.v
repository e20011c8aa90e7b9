(** Property theorems, part 17: nothing is invented (C45). *)

From Verif Require Import Spec Model Infra Total Safe Refine Main Api ApiProofs Callbacks History ApiFacts
  Unset MoveState Outcome Accept Access Docs5 Json Same Lock LockApi JsonPlaced Docs16 From.
Local Open Scope string_scope.
Set Implicit Arguments.

(** ** C45 *)

(** The scalars and keys among tokens. *)
Definition scalar_in (ts : list token) (x : scalar) : Prop := In (TSc x) ts.
Definition key_in (ts : list token) (k : string) : Prop := In (TKey k) ts.

(** The tokens yajl reports during a parse() or finish() call, if no callback cancels. *)
Definition reported_in (tk : tokenizer) (o : op) (a : api tk) : list token :=
  let st := if a_reset a then Some (tk_init tk)
            else match a_h a with HLive _ st => Some st | HDead _ => None end in
  match o with
  | OpParse M b =>
      match M b, st with Some bs, Some st => fst (tokens tk bs st) | _, _ => [] end
  | OpFinish _ => match a_h a with HLive _ st => fst (tk_fin tk st) | HDead _ => [] end
  end.

(** [read_by yerr ts s l g a]: [a] is a Parser over a parser object declared as [s], after
    any calls, succeeding or not, with any callbacks; [ts]: all that yajl reported. *)
Inductive read_by (tk : tokenizer) (yerr : list ascii -> string)
  : list token -> schema -> list event -> nat -> api tk -> Prop :=
| rb_new s l g : read_by yerr [] s l g (start tk g (mk s) l)
| rb_call ts s l g a E o a' : read_by yerr ts s l g a ->
    (do_op E g yerr o a = AOk a' \/ exists x, do_op E g yerr o a = AThrow x a') ->
    read_by yerr (ts ++ reported_in o a) s l g a'
| rb_pop ts s l g a rel : read_by yerr ts s l g a -> read_by yerr ts s l g (user_pop rel a)
| rb_again ts s l g a g' : read_by yerr ts s l g a ->
    read_by yerr ts s l g' (start tk g' (m_root (a_m a)) (past a))
| rb_callback ts s l g a w pi c : read_by yerr ts s l g a ->
    read_by yerr ts s l g (user_set_callback w pi c a).

(** The state of a Parser object: what it still holds comes from the text, and as long
    as it can report tokens the maps it is in have their keys. *)
Definition held_from (SC : scalar -> Prop) KY l tk (a : api tk) : Prop :=
  left_ SC KY l (a_m a) /\ (forall st, a_h a = HLive tk st -> inv_ SC KY l (a_m a)).

Section Keep.
Variable tk : tokenizer.
Variable g : nat.
Variable yerr : list ascii -> string.
Variable SC : scalar -> Prop.
Variable KY : string -> Prop.
Variable l : list event.
Variable E : env.
Notation J := (inv_ SC KY l).
Notation api := (api tk).
Notation H_ := (@held_from SC KY l tk).

Lemma held_inv (a : api) : J (a_m a) -> H_ a.
Proof. intros H. split; auto. apply inv_left; auto. Qed.
Lemma held_dead (a : api) : left_ SC KY l (a_m a) -> a_h a = HDead tk -> H_ a.
Proof. intros H Hd. split; auto. congruence. Qed.

Lemma made_after (a : api) ts x : J (a_m a) -> Forall (tok_ok SC KY) ts ->
  match after (run E g ts (a_m a)) x a with YOk a' | YErr a' => H_ a' | _ => True end.
Proof.
  intros H Ht. pose proof (@okf_run SC KY E g l ts (a_m a) H Ht) as K. unfold after.
  destruct (run E g ts (a_m a)); simpl in K; auto.
  - destruct x; apply held_inv; apply K.
  - apply held_dead; [exact K|reflexivity].
Qed.

Lemma made_reset m : left_ SC KY l m -> J (dispatcher_reset m).
Proof. intros [H1 H2]. split; auto. simpl. intros ? []. Qed.

Lemma made_op o (a : api) : H_ a -> Forall (tok_ok SC KY) (reported_in o a) ->
  match do_op E g yerr o a with AOk a' | AThrow _ a' => H_ a' | _ => True end.
Proof.
  intros H Ht. destruct o as [M b|M]; simpl in *.
  - unfold parse. destruct (M b) as [bs|]; auto. set (a1 := mkApi _ _ _ _ _).
    assert (K : match feed E g bs (do_reset a1) with YOk a' | YErr a' => H_ a' | _ => True end).
    { assert (H1 : H_ (do_reset a1)).
      { unfold do_reset. destruct (a_reset a1); [apply held_inv; simpl; apply made_reset; apply H|exact H]. }
      destruct (a_h (do_reset a1)) as [st|] eqn:Hh.
      - rewrite (feed_run E g bs _ Hh). apply made_after; [eapply H1; eauto|].
        unfold do_reset, a1 in Hh. cbn [a_reset] in Hh. destruct (a_reset a); cbn [a_h] in Hh.
        + injection Hh as <-. exact Ht.
        + rewrite Hh in Ht. exact Ht.
      - destruct bs; simpl; rewrite Hh; auto. }
    destruct (feed E g bs (do_reset a1)) as [q|q| |u|]; cbn [lift_y]; auto.
    destruct (throw_cases yerr M (with_reset q true)) as [[e ->]| ->]; auto.
  - unfold Api.finish.
    assert (K : match complete E g (with_reset a true) with YOk a' | YErr a' => H_ a' | _ => True end).
    { destruct (a_h a) as [st|] eqn:Hh.
      - rewrite (@complete_run tk E g (with_reset a true) st Hh). apply made_after; auto. eapply H; eauto.
      - unfold complete. cbn [with_reset a_h]. rewrite Hh. auto. }
    destruct (complete E g (with_reset a true)) as [q|q| |u|]; cbn [lift_y]; auto.
    + destruct (empty_stack (a_m q)); auto.
    + destruct (throw_cases yerr M q) as [[e ->]| ->]; auto.
Qed.

Lemma made_document M b bufs bs (a : api) : left_ SC KY l (a_m a) -> at_start a -> content M (b :: bufs) = Some bs ->
  Forall (tok_ok SC KY) (fst (tokenize tk bs)) ->
  match document E g yerr M (b :: bufs) a with AOk a' | AThrow _ a' => left_ SC KY l (a_m a') | _ => True end.
Proof.
  intros H Ha Hc Ht. pose proof (document_observe E g yerr M b bufs Ha Hc) as Ho. unfold doc_obs in Ho.
  destruct (tokenize tk bs) as [ts x]. cbn [fst] in Ht.
  pose proof (@okf_run SC KY E g l ts _ (made_reset H) Ht) as K. unfold dispatcher_reset in K.
  destruct (run E g ts _) as [m|e m|u|]; cbn [okf] in K.
  - destruct K as [K _]. apply inv_left in K. destruct x; [destruct (empty_stack m)|];
      destruct (document E g yerr M (b :: bufs) a) as [c|e c| |u|]; auto; cbn [observe] in Ho; try discriminate Ho;
      injection Ho; intros; subst; exact K.
  - destruct (document E g yerr M (b :: bufs) a) as [c|e' c| |u|]; auto; cbn [observe] in Ho; try discriminate Ho;
      injection Ho; intros; subst; exact K.
  - destruct (document E g yerr M (b :: bufs) a) as [c|e' c| |u'|]; auto; cbn [observe] in Ho; discriminate Ho.
  - destruct (document E g yerr M (b :: bufs) a) as [c|e' c| |u'|]; auto; cbn [observe] in Ho; discriminate Ho.
Qed.
End Keep.

Lemma kle_set_callback KY w c p : kle KY p (set_callback w c p).
Proof. destruct w, p; simpl; try apply kle_refl; apply kle_same; simpl; auto; intros []; reflexivity. Qed.

Lemma set_callback_pure SC KY w c p : pure SC KY p -> pure SC KY (set_callback w c p).
Proof.
  intros H. destruct w, p; simpl; try exact H;
    (eapply pure_same; [exact H|exact (pure_own H)|intros []; reflexivity]).
Qed.

Lemma made_start SC KY tk g p l l0 : pure SC KY p -> (exists l', l = (l0 ++ l')%list /\ Forall (told_made SC KY) l') ->
  inv_ SC KY l0 (a_m (start tk g p l)).
Proof.
  intros H Hl. split; simpl; auto; [|intros ? []]. apply pure_set_disp; auto.
Qed.

Lemma made_pop SC KY l tk rel (a : api tk) : inv_ SC KY l (a_m a) -> inv_ SC KY l (a_m (user_pop rel a)).
Proof.
  intros [H1 H2 H3]. split; simpl; auto; [apply pure_unset_at; auto|]. intros sigma Hs. apply kle_unset_at. auto.
Qed.

Lemma made_callback SC KY l tk w pi c (a : api tk) : inv_ SC KY l (a_m a) -> inv_ SC KY l (a_m (user_set_callback w pi c a)).
Proof.
  intros H. unfold user_set_callback, set_callback_at. simpl.
  destruct (get pi (m_root (a_m a))) as [q|] eqn:Hq; [|destruct H; split; simpl; auto].
  pose proof (@inv_upd SC KY l (a_m a) pi q (set_callback w c q) H) as K. unfold upd in K. apply K; auto.
  - apply set_callback_pure. eapply pure_get; eauto. apply H.
  - apply kle_set_callback.
Qed.

Lemma left_pop SC KY l tk rel (a : api tk) : left_ SC KY l (a_m a) -> left_ SC KY l (a_m (user_pop rel a)).
Proof. intros [H1 H2]. split; simpl; auto. apply pure_unset_at; auto. Qed.

Lemma left_callback SC KY l tk w pi c (a : api tk) : left_ SC KY l (a_m a) -> left_ SC KY l (a_m (user_set_callback w pi c a)).
Proof.
  intros [H1 H2]. split; [|exact H2].
  assert (H : inv_ SC KY l (a_m (@mkApi tk (mkS (m_root (a_m a)) [] (m_log (a_m a))) (a_h a) (a_data a) (a_reset a) (a_err a)))).
  { split; simpl; auto. intros ? []. }
  exact (i_pure (made_callback w pi c _ H)).
Qed.

Lemma read_by_made tk yerr ts s l g (a : api tk) SC KY : read_by yerr ts s l g a ->
  defaults_text SC KY s -> (forall x, In (TSc x) ts -> SC x) -> (forall k, In (TKey k) ts -> KY k) ->
  held_from SC KY l a.
Proof.
  intros Hu Hd. induction Hu as [s l g|ts s l g a E o a' _ IH Ho|ts s l g a rel _ IH|ts s l g a g' _ IH|ts s l g a w pi c _ IH];
    intros Hsc Hky; try specialize (IH Hd).
  - apply held_inv, made_start; [apply pure_mk; auto|]. exists []. split; [rewrite app_nil_r; auto|constructor].
  - assert (K : held_from SC KY l a) by (apply IH; intros; [apply Hsc|apply Hky]; apply in_or_app; auto).
    assert (Kt : Forall (tok_ok SC KY) (reported_in o a)).
    { apply Forall_forall. intros [] Hin; simpl; auto; [apply Hsc|apply Hky]; apply in_or_app; auto. }
    pose proof (@made_op tk g yerr SC KY l E o a K Kt) as R.
    destruct Ho as [Ho|[x Ho]]; rewrite Ho in R; exact R.
  - destruct (IH Hsc Hky) as [H1 H2]. split; [apply left_pop; auto|]. intros st Hst. eapply made_pop, H2; eauto.
  - destruct (IH Hsc Hky) as [[H1 H2] _]. apply held_inv, made_start; auto.
  - destruct (IH Hsc Hky) as [H1 H2]. split; [apply left_callback; auto|]. intros st Hst. eapply made_callback, H2; eauto.
Qed.

Lemma left_facts SC KY l m : left_ SC KY l m ->
  (forall pi p v, get pi (m_root m) = Some p -> get_value p = Some v -> made SC KY v) /\
  exists l', m_log m = (l ++ l')%list /\ Forall (told_made SC KY) l'.
Proof.
  intros [H1 H2]. split; auto. intros pi p v Hg Hv. eapply pure_value; [|exact Hv]. eapply pure_get; eauto.
Qed.

(** After any calls, whatever the texts, the chunks, the callbacks and the failures: every
    value get() returns, of any parser of the declaration, and everything callbacks were
    told since, is made of scalars that yajl reported in these calls, and the keys of
    every map in it are keys yajl reported.  (Default values of the declaration, if there
    are any, are to be counted in: [defaults_text].) *)
Lemma c45_made : forall (tk : tokenizer) yerr (SC : scalar -> Prop) (KY : string -> Prop) ts s l g (a : api tk),
  read_by yerr ts s l g a -> defaults_text SC KY s ->
  (forall x, In (TSc x) ts -> SC x) -> (forall k, In (TKey k) ts -> KY k) ->
  (forall pi p v, get pi (m_root (a_m a)) = Some p -> get_value p = Some v -> made SC KY v) /\
  exists l', past a = (l ++ l')%list /\ Forall (told_made SC KY) l'.
Proof. intros. eapply left_facts, read_by_made; eauto. Qed.

(** In particular, for declarations without default values: made of exactly that. *)
Lemma c45_from_text : forall (tk : tokenizer) yerr ts s l g (a : api tk),
  read_by yerr ts s l g a -> defaults_text (scalar_in ts) (key_in ts) s ->
  (forall pi p v, get pi (m_root (a_m a)) = Some p -> get_value p = Some v -> made (scalar_in ts) (key_in ts) v) /\
  exists l', past a = (l ++ l')%list /\ Forall (told_made (scalar_in ts) (key_in ts)) l'.
Proof. intros. eapply c45_made; eauto. Qed.

Lemma tok_ok_in ts (SC : scalar -> Prop) (KY : string -> Prop) : (forall x, In (TSc x) ts -> SC x) -> (forall k, In (TKey k) ts -> KY k) -> Forall (tok_ok SC KY) ts.
Proof. intros H1 H2. apply Forall_forall. intros [] Hin; simpl; auto. Qed.

(** Every document, in any chunks, accepted or refused, with any callbacks: a new parser
    shows and tells nothing but what is made of the scalars and keys of its text. *)
Lemma c45_document : forall (tk : tokenizer) E g yerr (SC : scalar -> Prop) (KY : string -> Prop) s l M b bufs bs (a' : api tk),
  content M (b :: bufs) = Some bs ->
  let ts := fst (tokenize tk bs) in
  defaults_text SC KY s -> (forall x, In (TSc x) ts -> SC x) -> (forall k, In (TKey k) ts -> KY k) ->
  (document E g yerr M (b :: bufs) (start tk g (mk s) l) = AOk a' \/
   exists e, document E g yerr M (b :: bufs) (start tk g (mk s) l) = AThrow e a') ->
  (forall pi p v, get pi (m_root (a_m a')) = Some p -> get_value p = Some v -> made SC KY v) /\
  exists l', past a' = (l ++ l')%list /\ Forall (told_made SC KY) l'.
Proof.
  intros tk E g yerr SC KY s l M b bufs bs a' Hc ts Hd Hx Hk Ho. apply left_facts.
  assert (Hi : inv_ SC KY l (a_m (start tk g (mk s) l))).
  { apply made_start; [apply pure_mk; auto|]. exists []. split; [rewrite app_nil_r; auto|constructor]. }
  pose proof (@made_document tk g yerr _ _ l E M b bufs bs _ (inv_left Hi) (or_intror (conj eq_refl (conj eq_refl eq_refl))) Hc
    (@tok_ok_in ts _ _ Hx Hk)) as K.
  destruct Ho as [Ho|[e Ho]]; rewrite Ho in K; exact K.
Qed.

(** A parser that has been used for other documents: with C44, nothing of an earlier
    document (values, keys, elements, callback arguments) is seen in the next.  Conditions
    as in C44. *)
Lemma c45_no_leak : forall (tk : tokenizer) E g yerr flat (SC : scalar -> Prop) (KY : string -> Prop) s (a a' : api tk) M b bufs bs,
  same_eyes E -> regular flat s = true -> history g yerr s a -> at_start a ->
  content M (b :: bufs) = Some bs ->
  let ts := fst (tokenize tk bs) in
  values_lead true ts -> (flat = true \/ ~ In TNull ts) ->
  (exists t r, ts = t :: r /\ opener (kind_s s) t = true) ->
  defaults_text SC KY s -> (forall x, In (TSc x) ts -> SC x) -> (forall k, In (TKey k) ts -> KY k) ->
  (document E g yerr M (b :: bufs) a = AOk a' \/ exists e, document E g yerr M (b :: bufs) a = AThrow e a') ->
  (forall v, shown (view_of (m_root (a_m a'))) v -> made SC KY v) /\
  exists l', past a' = (past a ++ l')%list /\ Forall (told_made SC KY) l'.
Proof.
  intros tk E g yerr flat SC KY s a a' M b bufs bs He Hr Hh Ha Hc ts Hl Hn Hop Hd Hx Hk Ho.
  pose proof (@history_reply tk E g yerr flat s a M b bufs bs He Hr Hh Ha Hc Hl Hn) as R. unfold same_reply in R.
  assert (Hi : inv_ SC KY (past a) (a_m (start tk g (mk s) (past a)))).
  { apply made_start; [apply pure_mk; auto|]. exists []. split; [rewrite app_nil_r; auto|constructor]. }
  pose proof (@made_document tk g yerr _ _ (past a) E M b bufs bs _ (inv_left Hi) (or_intror (conj eq_refl (conj eq_refl eq_refl))) Hc
    (@tok_ok_in ts _ _ Hx Hk)) as K. unfold past in K.
  destruct (document E g yerr M (b :: bufs) (start tk g (mk s) (m_log (a_m a)))) as [c|e c| |u|];
    destruct Ho as [Ho|[e0 Ho]]; rewrite Ho in R; try contradiction.
  - destruct R as [R1 R2]. rewrite (R2 Hop). split; [intros v; apply view_made; apply K|]. unfold past. rewrite R1. apply K.
  - destruct R as (_ & R1 & R2). rewrite (R2 Hop). split; [intros v; apply view_made; apply K|]. unfold past. rewrite R1. apply K.
Qed.

(** For JSON text: any bytes at all. *)
Lemma c45_no_leak_json : forall E g yerr flat (SC : scalar -> Prop) (KY : string -> Prop) s (a a' : api json_tk) M b bufs bs,
  same_eyes E -> regular flat s = true -> history g yerr s a -> at_start a ->
  content M (b :: bufs) = Some bs ->
  let ts := fst (tokenize json_tk bs) in
  (flat = true \/ ~ In TNull ts) ->
  (exists t r, ts = t :: r /\ opener (kind_s s) t = true) ->
  defaults_text SC KY s -> (forall x, In (TSc x) ts -> SC x) -> (forall k, In (TKey k) ts -> KY k) ->
  (document E g yerr M (b :: bufs) a = AOk a' \/ exists e, document E g yerr M (b :: bufs) a = AThrow e a') ->
  (forall v, shown (view_of (m_root (a_m a'))) v -> made SC KY v) /\
  exists l', past a' = (past a ++ l')%list /\ Forall (told_made SC KY) l'.
Proof. intros. eapply c45_no_leak; eauto using json_placed. Qed.
