(** Property theorems, part 12: documents that have arrived only partly (C41). *)

From Verif Require Import Spec StreamSpec Model Infra Total Safe Refine Main Stream Api ApiProofs
  History ApiFacts Outcome Log StreamApi Docs1.
Local Open Scope string_scope.
Set Implicit Arguments.

(** ** The history of callbacks only grows *)
Section Grow.
Variable tk : tokenizer.
Variables (E : env) (g : nat) (yerr : list ascii -> string).

Definition longer (a a' : api tk) : Prop := exists l, past a' = (past a ++ l)%list.

Lemma after_longer r y (a q : api tk) : ext (a_m a) r ->
  after r y a = YOk q \/ after r y a = YErr q -> longer a q.
Proof.
  intros He. unfold after, longer, past. destruct r as [m|e m|u|]; [destruct y as [st|]|..]; intros [H|H];
    inversion H; subst; simpl in *; auto.
Qed.

Lemma feed_longer bs (a q : api tk) : feed E g bs a = YOk q \/ feed E g bs a = YErr q -> longer a q.
Proof.
  destruct (a_h a) as [st|] eqn:Hh.
  - rewrite (feed_run E g bs a Hh). apply after_longer. apply run_ext.
  - intros H. exists []. rewrite app_nil_r.
    destruct bs; simpl in H; rewrite Hh in H; destruct H as [H|H]; inversion H; subst; auto.
Qed.

Lemma complete_longer (a q : api tk) : complete E g a = YOk q \/ complete E g a = YErr q -> longer a q.
Proof.
  destruct (a_h a) as [st|] eqn:Hh.
  - rewrite (complete_run E g a Hh). apply after_longer. apply run_ext.
  - intros H. exists []. rewrite app_nil_r.
    unfold complete in H; rewrite Hh in H; destruct H as [H|H]; inversion H; subst; auto.
Qed.
End Grow.

(** ** C41 *)

(** parse() of the beginning of a document, in any number of buffers, after any
    history: the callbacks that have run and what the parsers show are those of the
    beginning [q], as StreamSpec.v gives them. *)
Lemma c41_beginning_outcome : forall (tk : tokenizer) g yerr P s (a : api tk) M b bufs q,
  receives g yerr s a M b bufs (part_toks q) -> psupported q s = true ->
  fed g yerr P M b bufs a = expected (pden P q s (shows a) (past a)).
Proof. intros; apply fed_expected; auto. Qed.

(** This is every proper beginning of every supported document. *)
Lemma c41_every_beginning : forall (tk : tokenizer) g yerr P s (a : api tk) M b bufs j now later,
  supported j s = true -> toks j = (now ++ later)%list -> now <> [] -> later <> [] ->
  receives g yerr s a M b bufs now ->
  exists q, now = part_toks q /\ fed g yerr P M b bufs a = expected (pden P q s (shows a) (past a)).
Proof.
  intros tk g yerr P s a M b bufs j now later Hs Ht Hn Hl Hr.
  destruct (@proper_prefix_part j now later Ht Hn Hl) as (q & -> & Hb & _).
  exists q. split; auto. apply fed_expected; auto.
Qed.

(** When the last byte of a document has been given to parse(), everything has happened:
    finish() is not needed for the callbacks and values. *)
Lemma c41_whole_text : forall (tk : tokenizer) g yerr P s (a : api tk) M b bufs j,
  receives g yerr s a M b bufs (toks j) -> supported j s = true ->
  fed g yerr P M b bufs a = expected (den P j s (past a)).
Proof. intros; apply fed_whole; auto. Qed.

(** Before the first token nothing happens. *)
Lemma c41_no_token : forall (tk : tokenizer) g yerr P s (a : api tk) M b bufs,
  receives g yerr s a M b bufs [] -> fed g yerr P M b bufs a = Parsed (past a) (shows a).
Proof. intros; eapply fed_nothing; eauto. Qed.

(** The callbacks of the beginning are the first callbacks of the document; an error in
    the beginning is the document's error. *)
Lemma c41_first_callbacks : forall P j q later s w l,
  supported j s = true -> psupported q s = true -> toks j = (part_toks q ++ later)%list ->
  match pden P q s w l with
  | (l', inr _) => exists more, fst (den P j s l) = (l' ++ more)%list
  | (l', inl e) => den P j s l = (l', inl e)
  end.
Proof.
  intros P j q later s w l Hs Hps Ht.
  destruct (is_ign s) eqn:Hi.
  { destruct s; try discriminate. rewrite pden_ign. exists []. rewrite app_nil_r. destruct j; reflexivity. }
  (* the machine's run on the beginning *)
  set (p := set_disp (Some 0) (mk s)).
  assert (Hsc : schema_of p = s) by (unfold p; rewrite schema_set_disp, schema_mk; auto).
  assert (Ha : att 0 p) by apply att_set_disp.
  assert (Hr : rdy false p) by (apply rdy_set_disp, rdy_mk).
  pose proof Hs as Hs1. rewrite <- Hsc in Hs1.
  pose proof Hps as Hps1. rewrite <- Hsc in Hps1.
  pose proof (document_run P 0 j p l Hs1 Ha Hr) as Hd. cbv zeta in Hd. rewrite Ht, run_app, Hsc in Hd.
  pose proof (part_document_run P 0 q p l Hps1 Ha Hr) as Hq. cbv zeta in Hq. rewrite Hsc in Hq.
  rewrite (@pden_w P q s w (view_of p) l Hi).
  destruct (pden P q s (view_of p) l) as [l1 [e|w1]].
  - destruct Hq as (m & Hq & Hl). rewrite Hq in Hd. cbn [bind] in Hd.
    destruct (den P j s l) as [l2 [e2|w2]].
    + destruct Hd as (m2 & Hd & Hl2). inversion Hd. congruence.
    + destruct Hd as (p' & Hd & _). discriminate.
  - destruct Hq as (p' & st & Hq & _). rewrite Hq in Hd. cbn [bind] in Hd.
    pose proof (run_ext (lift P) 0 later (mkS p' (st ++ [[]])%list l1)) as Hx.
    destruct (den P j s l) as [l2 [e2|w2]].
    + destruct Hd as (m2 & Hd & Hl2). rewrite Hd in Hx. destruct Hx as [x Hx]. exists x. simpl in *. congruence.
    + destruct Hd as (p2 & Hd & _). rewrite Hd in Hx. destruct Hx as [x Hx]. exists x. exact Hx.
Qed.

(** No later call takes an invocation back, whatever the program does. *)
Lemma c41_history_grows : forall (tk : tokenizer) E g yerr (o : op) (a a' : api tk),
  (do_op E g yerr o a = AOk a' \/ exists x, do_op E g yerr o a = AThrow x a') ->
  exists l, past a' = (past a ++ l)%list.
Proof.
  intros tk E g yerr o a a' H. destruct o as [M b|M]; cbn [do_op] in H.
  - unfold parse in H. destruct (M b) as [bs|]; [|destruct H as [H|[x H]]; discriminate].
    set (a1 := do_reset _) in *.
    assert (Ha1 : past a1 = past a) by (unfold a1, do_reset; simpl; destruct (a_reset a); reflexivity).
    pose proof (@feed_longer tk E g bs a1) as Hf. unfold longer in Hf. rewrite Ha1 in Hf.
    destruct (feed E g bs a1) as [q|q| |u|]; cbn [lift_y] in H.
    + destruct H as [H|[x H]]; inversion H; subst. auto.
    + destruct H as [H|[x H]]; [exfalso; eapply throw_not_ok; eauto|].
      apply throw_m in H. destruct H as [-> _]. apply (Hf q); auto.
    + destruct H as [H|[x H]]; discriminate.
    + destruct H as [H|[x H]]; discriminate.
    + destruct H as [H|[x H]]; discriminate.
  - unfold Api.finish in H. pose proof (@complete_longer tk E g (with_reset a true)) as Hf.
    unfold longer in Hf. change (past (with_reset a true)) with (past a) in Hf.
    destruct (complete E g (with_reset a true)) as [q|q| |u|]; cbn [lift_y] in H.
    + destruct (empty_stack (a_m q)); destruct H as [H|[x H]]; inversion H; subst; auto.
    + destruct H as [H|[x H]]; [exfalso; eapply throw_not_ok; eauto|].
      apply throw_m in H. destruct H as [-> _]. apply (Hf q); auto.
    + destruct H as [H|[x H]]; discriminate.
    + destruct H as [H|[x H]]; discriminate.
    + destruct H as [H|[x H]]; discriminate.
Qed.
