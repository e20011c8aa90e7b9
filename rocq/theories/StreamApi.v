(** Beginnings of documents and the public interface. *)

From Verif Require Import Spec StreamSpec Model Infra Total Safe Refine Main Stream Api ApiProofs History Outcome.
Local Open Scope string_scope.
Set Implicit Arguments.

(** ** Every proper beginning of a document's tokens is a [beginning] *)
Definition begins (j : json) (q : beginning) : Prop :=
  (forall s, supported j s = true -> psupported q s = true) /\
  (no_null j = true -> part_no_null q = true) /\
  match j with JArr _ => is_arr q = true | JObj _ => True | _ => False end.

Definition cuts (j : json) : Prop := forall pre suf,
  toks j = (pre ++ suf)%list -> pre <> [] -> suf <> [] -> exists q, pre = part_toks q /\ begins j q.

Lemma cut_app A (a b pre suf : list A) : (a ++ b = pre ++ suf)%list ->
  (exists x, a = pre ++ x /\ suf = x ++ b)%list \/ (exists x, pre = a ++ x /\ b = x ++ suf)%list.
Proof.
  revert pre. induction a as [|y a IH]; intros pre H; simpl in *.
  - right. eauto.
  - destruct pre as [|z pre]; simpl in *.
    + left. exists (y :: a). subst; auto.
    + inversion H; subst. destruct (IH _ H2) as [(x & -> & ->)|(x & -> & ->)]; eauto.
Qed.

Lemma elems_cut l : Forall cuts l -> forall pre suf, flat_map toks l = (pre ++ suf)%list ->
  exists d r, l = (d ++ r)%list /\
    (pre = flat_map toks d \/
     exists j r' q, r = j :: r' /\ pre = (flat_map toks d ++ part_toks q)%list /\ begins j q).
Proof.
  induction 1 as [|j l Hj _ IH]; intros pre suf H; cbn [flat_map] in H.
  - symmetry in H. apply app_eq_nil in H. destruct H; subst. exists [], []. auto.
  - destruct (cut_app _ _ _ _ H) as [(x & H1 & H2)|(x & H1 & H2)].
    + destruct x as [|y x].
      { exists [j], l. split; auto. left. simpl. rewrite H1, !app_nil_r. reflexivity. }
      destruct pre as [|z pre].
      { exists [], (j :: l). split; auto. }
      destruct (Hj (z :: pre) (y :: x) H1) as (q & Hq & Hb); try discriminate.
      exists [], (j :: l). split; auto. right. exists j, l, q. auto.
    + destruct (IH _ _ H2) as (d & r & -> & Hd). exists (j :: d), r. split; auto. cbn [flat_map].
      destruct Hd as [->|(j' & r' & q & -> & -> & Hb)]; subst pre; auto.
      right. exists j', r', q. rewrite <- app_assoc. auto.
Qed.

Lemma members_cut ps : Forall (fun kv => cuts (snd kv)) ps -> forall pre suf,
  member_toks ps = (pre ++ suf)%list ->
  exists d r, ps = (d ++ r)%list /\
    (pre = member_toks d \/
     (exists k v r', r = (k, v) :: r' /\ pre = (member_toks d ++ [TKey k])%list) \/
     exists k v r' q, r = (k, v) :: r' /\ pre = (member_toks d ++ TKey k :: part_toks q)%list /\ begins v q).
Proof.
  induction 1 as [|[k v] ps Hv _ IH]; intros pre suf H.
  - symmetry in H. apply app_eq_nil in H. destruct H; subst. exists [], []. auto.
  - rewrite <- (app_nil_r (member_toks _)), member_toks_cons, app_nil_r in H. cbn [snd] in Hv.
    destruct pre as [|t pre].
    { exists [], ((k, v) :: ps). auto. }
    cbn [app] in H. inversion H as [[H1 H2]]. subst t. clear H. rename H2 into H.
    destruct (cut_app _ _ _ _ H) as [(x & H1 & H2)|(x & H1 & H2)].
    + destruct pre as [|z pre].
      { exists [], ((k, v) :: ps). split; auto. right; left. exists k, v, ps. auto. }
      destruct x as [|y x].
      { exists [(k, v)], ps. split; auto. left. unfold member_toks. simpl. rewrite H1, !app_nil_r. reflexivity. }
      destruct (Hv (z :: pre) (y :: x) H1) as (q & Hq & Hb); try discriminate.
      exists [], ((k, v) :: ps). split; auto. right; right. exists k, v, ps, q. rewrite Hq. auto.
    + destruct (IH _ _ H2) as (d & r & -> & Hd). exists ((k, v) :: d), r. split; auto.
      assert (Hm : member_toks ((k, v) :: d) = (TKey k :: toks v ++ member_toks d)%list).
      { rewrite <- (app_nil_r (member_toks _)), member_toks_cons, app_nil_r. reflexivity. }
      rewrite Hm. subst pre.
      destruct Hd as [->|[(k' & v' & r' & -> & ->)|(k' & v' & r' & q & -> & -> & Hb)]].
      * auto.
      * right; left. exists k', v', r'. split; auto. cbn [app]. rewrite <- app_assoc. reflexivity.
      * right; right. exists k', v', r', q. split; auto. cbn [app]. rewrite <- app_assoc. auto.
Qed.

Lemma sup_value_mono (f f' : schema -> bool) s c v : (forall x, f x = true -> f' x = true) ->
  sup_value supported f s c v = true -> sup_value supported f' s c v = true.
Proof.
  intros H. unfold sup_value, sup_select. destruct (embedded c v) as [[[[[st t] ms] cb] x]|].
  - destruct (vtype_eqb (ty_of x) t); auto. destruct (index_of x ms); auto.
    destruct (nth_error ms n) as [[m c']|]; auto.
  - intros H1. apply andb_prop in H1. destruct H1 as [H1 H2]. rewrite H1. simpl. auto.
Qed.

Lemma psup_body_of stop r : (forall s, sup_body supported r s = true -> stop s = true) ->
  forall d s, sup_body supported (d ++ r) s = true -> psup_body stop d s = true.
Proof.
  intros Hr. induction d as [|[k v] d IH]; intros s H; cbn [app] in H.
  - simpl. auto.
  - rewrite sup_body_cons in H. rewrite psup_body_cons.
    destruct s; auto.
    + eapply sup_value_mono; eauto.
    + destruct (index_of (SStr k) ms) as [i|].
      * destruct (nth_error ms i) as [[m c]|]; auto. eapply sup_value_mono; eauto.
      * destruct ign; auto. apply andb_prop in H. destruct H as [H1 H2]. rewrite H1. simpl. auto.
    + destruct (String.eqb tm ""); auto. destruct (String.eqb k tm); auto.
      destruct v; auto. unfold sup_select in *. destruct (vtype_eqb (ty_of x) t); auto.
      destruct (index_of x ms); auto. destruct (nth_error ms n) as [[m c']|]; auto.
Qed.

Lemma begins_not_sc v q : begins v q -> match v with JNull | JSc _ => False | _ => True end.
Proof. intros (_ & _ & H). destruct v; auto. Qed.

Lemma psup_in_of k v r q : begins v q -> forall s,
  sup_body supported ((k, v) :: r) s = true -> psup_in k q (psupported q) s = true.
Proof.
  intros Hb s H. rewrite sup_body_cons in H. pose proof (begins_not_sc Hb) as Hn.
  destruct Hb as (Hb1 & Hb2 & Hb3).
  assert (Hsv : forall f s c, sup_value supported f s c v = true -> psupported q c = true).
  { intros f s' c. unfold sup_value. destruct (embedded c v) as [[[[[st t] ms] cb] x]|] eqn:He.
    - destruct (embedded_inv _ _ He) as [_ ->]. tauto.
    - intros H1. apply andb_prop in H1. destruct H1; auto. }
  destruct s; cbn [psup_in]; auto.
  - eauto.
  - destruct (index_of (SStr k) ms) as [i|].
    + destruct (nth_error ms i) as [[m c]|]; eauto.
    + destruct ign; auto. apply andb_prop in H. destruct H as [H1 H2]. apply Hb2.
      unfold ignorable in H1. destruct v; simpl in H1; try tauto; auto.
  - destruct (String.eqb tm ""); auto. destruct (String.eqb k tm); auto.
    destruct v; try discriminate; try tauto.
Qed.

Theorem proper_prefix_part j : cuts j.
Proof.
  induction j as [|x|l IH|ps IH] using json_ind'; intros pre suf H Hp Hs.
  - destruct pre as [|a [|b pre]]; try congruence; simpl in H; inversion H; congruence.
  - destruct pre as [|a [|b pre]]; try congruence; simpl in H; inversion H; congruence.
  - destruct pre as [|t pre]; [congruence|]. cbn [toks app] in H. inversion H as [[H1 H2]]. subst t.
    assert (Hc : exists x, flat_map toks l = (pre ++ x)%list).
    { destruct (cut_app _ _ _ _ H2) as [(x & Hx & _)|(x & Hx & Hy)]; [eauto|].
      destruct x as [|y x]; [exists []; rewrite Hx, !app_nil_r; auto|].
      destruct x; [|discriminate]. destruct suf; [congruence|discriminate]. }
    destruct Hc as [x Hx]. destruct (elems_cut IH _ _ Hx) as (d & r & -> & [->|(j & r' & q & -> & -> & Hb)]).
    + exists (PtArr d). split; auto. split; [|split; auto].
      * intros s Hsup. destruct s; auto; cbn [supported psupported psup_arr] in *.
        -- apply andb_prop in Hsup. destruct Hsup as [K1 K2]. rewrite forallb_app in K2.
           apply andb_prop in K2. destruct K2 as [K2 K3]. rewrite K1, K2. reflexivity.
        -- unfold ignorable in Hsup. simpl in Hsup. rewrite forallb_app in Hsup.
           apply andb_prop in Hsup. apply Hsup.
      * simpl. rewrite forallb_app. intros K. apply andb_prop in K. apply K.
    + exists (PtArrIn d q). split; auto. pose proof (begins_not_sc Hb) as Hns. destruct Hb as (Hb1 & Hb2 & Hb3).
      split; [|split; auto].
      * intros s Hsup. destruct s; auto; cbn [supported psupported psup_arr] in *.
        -- apply andb_prop in Hsup. destruct Hsup as [K1 K2]. rewrite forallb_app in K2.
           apply andb_prop in K2. destruct K2 as [K2 K3]. rewrite K1, K2. simpl.
           simpl in K3. apply andb_prop in K3. destruct K3 as [K3 _].
           apply Hb1. destruct j; simpl in *; try tauto; auto.
        -- unfold ignorable in Hsup. simpl in Hsup. rewrite forallb_app in Hsup. simpl in Hsup.
           apply andb_prop in Hsup. destruct Hsup as [K1 K2]. apply andb_prop in K2. destruct K2 as [K2 _].
           simpl. rewrite K1. simpl. auto.
      * simpl. rewrite forallb_app. simpl. intros K. apply andb_prop in K. destruct K as [K1 K2].
        apply andb_prop in K2. destruct K2 as [K2 _]. rewrite K1. simpl. auto.
  - destruct pre as [|t pre]; [congruence|]. cbn [toks app] in H. inversion H as [[H1 H2]]. subst t.
    assert (Hc : exists x, member_toks ps = (pre ++ x)%list).
    { destruct (cut_app _ _ _ _ H2) as [(x & Hx & _)|(x & Hx & Hy)]; [exists x; exact Hx|].
      destruct x as [|y x]; [exists []; rewrite Hx, !app_nil_r; auto|].
      destruct x; [|discriminate]. destruct suf; [congruence|discriminate]. }
    destruct Hc as [x Hx].
    assert (Hsb : forall stop d r ign, ps = (d ++ r)%list ->
      (forall s, sup_body supported r s = true -> stop s = true) ->
      (no_null (JObj ps) = true -> ign = true) ->
      forall s, supported (JObj ps) s = true -> psup_obj stop ign d s = true).
    { intros stop d r ign -> Hst Hi s Hsup. destruct s; auto; cbn [supported psup_obj] in *.
      - eapply psup_body_of; eauto.
      - eapply psup_body_of; eauto.
      - destruct (String.eqb tm ""); auto. eapply psup_body_of; eauto. }
    destruct (members_cut IH _ _ Hx) as (d & r & Hps & [->|[(k & v & r' & -> & ->)|(k & v & r' & q & -> & -> & Hb)]]).
    + assert (Hnn : no_null (JObj ps) = true -> part_no_null (PtObj d) = true).
      { subst ps. simpl. rewrite forallb_app. intros K. apply andb_prop in K. apply K. }
      exists (PtObj d). split; auto. split; [|split; auto].
      intros s Hsup. cbn [psupported]. eapply Hsb; eauto.
    + assert (Hnn : no_null (JObj ps) = true -> part_no_null (PtKey d k) = true).
      { subst ps. simpl. rewrite forallb_app. intros K. apply andb_prop in K. apply K. }
      exists (PtKey d k). split; auto. split; [|split; auto].
      intros s Hsup. cbn [psupported]. eapply Hsb; eauto.
    + assert (Hnn : no_null (JObj ps) = true -> part_no_null (PtObjIn d k q) = true).
      { subst ps. simpl. rewrite forallb_app. simpl. intros K. apply andb_prop in K. destruct K as [K1 K2].
        apply andb_prop in K2. destruct K2 as [K2 _]. rewrite K1. simpl. apply Hb; auto. }
      exists (PtObjIn d k q). split; auto. split; [|split; auto].
      intros s Hsup. cbn [psupported]. eapply Hsb; eauto. intros. eapply psup_in_of; eauto.
Qed.

(** ** parse() of the beginning of a document *)
Section Api.
Variable tk : tokenizer.
Variable g : nat.
Variable yerr : list ascii -> string.
Notation api := (api tk).

(** What the root parser shows. *)
Definition shows (a : api) : view := view_of (m_root (a_m a)).

(** The Parser [a] over declaration [s] is about to be given the text in the buffers
    [b :: bufs], with which a document begins; the tokenizer reports [ts] in it. *)
Definition receives (s : schema) (a : api) (M : mem) (b : nat) (bufs : list nat) (ts : list token) : Prop :=
  history g yerr s a /\ at_start a /\
  exists bs st, content M (b :: bufs) = Some bs /\ tokens tk bs (tk_init tk) = (ts, Some st).

(** parse() of all buffers. *)
Definition fed (P : prog) (M : mem) (b : nat) (bufs : list nat) (a : api) : outcome :=
  result (parse_all (lift P) g yerr M (b :: bufs) a).

Lemma parse_tokens_result E M b bufs bs (a : api) ts st :
  at_start a -> content M (b :: bufs) = Some bs -> tokens tk bs (tk_init tk) = (ts, Some st) ->
  result (parse_all E g yerr M (b :: bufs) a) =
  match run E g ts (mkS (m_root (a_m a)) [[]] (m_log (a_m a))) with
  | ROk m => Parsed (m_log m) (view_of (m_root m))
  | RThrow e m => Failed (m_log m) (caught e)
  | _ => Broken
  end.
Proof.
  intros Ha Hc Ht. pose proof (@parse_chunks tk E g yerr M b bufs bs a Hc) as Hp.
  set (a0 := mkApi (mkS (m_root (a_m a)) [[]] (m_log (a_m a))) (HLive tk (tk_init tk)) None false "").
  assert (Hs : same_but_data (do_reset a) a0).
  { destruct (do_reset_start Ha) as [H|[Hr H]]; auto. rewrite Hr in H. auto. }
  unfold parse_obs in Hp.
  pose proof (@feed_same tk E g bs _ _ Hs) as Hf.
  rewrite (@feed_run tk E g bs a0 (tk_init tk)) in Hf by reflexivity. cbn [a_m a0] in Hf.
  rewrite Ht in Hf. cbn [fst snd] in Hf.
  destruct (run E g ts (mkS (m_root (a_m a)) [[]] (m_log (a_m a)))) as [m|e m|u|]; cbn [after] in Hf;
  destruct (feed E g bs (do_reset a)) as [q|q| |u'|]; try tauto;
  try (destruct Hf as (H1 & H2 & H3 & H4); simpl in H1, H2, H3, H4; rewrite H1, ?H2, ?H3, H4 in Hp);
  destruct (parse_all E g yerr M (b :: bufs) a) as [a'|z a'| |u2|]; cbn [observe] in Hp; try discriminate;
  try (injection Hp as E1 E2 E3 E4); simpl; auto; congruence.
Qed.

Theorem fed_expected P s a M b bufs q :
  receives s a M b bufs (part_toks q) -> psupported q s = true ->
  fed P M b bufs a = expected (pden P q s (shows a) (past a)).
Proof.
  intros (Hh & Ha & bs & st & Hc & Ht) Hs. destruct (history_inv Hh) as ((Hg1 & Hg2 & Hg3) & _).
  unfold fed. rewrite (parse_tokens_result (lift P) M b bufs Ha Hc Ht).
  rewrite <- Hg1 in Hs. pose proof (part_document_run P g q _ (m_log (a_m a)) Hs Hg2 Hg3) as Hr. cbn zeta in Hr.
  rewrite Hg1 in Hr. unfold shows, past, expected.
  destruct (pden P q s (view_of (m_root (a_m a))) (m_log (a_m a))) as [l' [e|w]].
  - destruct Hr as (m & -> & Hl). rewrite Hl. reflexivity.
  - destruct Hr as (p' & st' & -> & Hv & _). simpl. rewrite Hv. reflexivity.
Qed.

Theorem fed_whole P s a M b bufs j :
  receives s a M b bufs (toks j) -> supported j s = true ->
  fed P M b bufs a = expected (den P j s (past a)).
Proof.
  intros (Hh & Ha & bs & st & Hc & Ht) Hs. destruct (history_inv Hh) as ((Hg1 & Hg2 & Hg3) & _).
  unfold fed. rewrite (parse_tokens_result (lift P) M b bufs Ha Hc Ht).
  rewrite <- Hg1 in Hs. pose proof (document_run P g j _ (m_log (a_m a)) Hs Hg2 Hg3) as Hr. cbn zeta in Hr.
  rewrite Hg1 in Hr. unfold past, expected.
  destruct (den P j s (m_log (a_m a))) as [l' [e|w]].
  - destruct Hr as (m & -> & Hl). rewrite Hl. reflexivity.
  - destruct Hr as (p' & -> & Hv & _). simpl. rewrite Hv. reflexivity.
Qed.

Theorem fed_nothing P s a M b bufs :
  receives s a M b bufs [] -> fed P M b bufs a = Parsed (past a) (shows a).
Proof.
  intros (Hh & Ha & bs & st & Hc & Ht). unfold fed.
  rewrite (parse_tokens_result (lift P) M b bufs Ha Hc Ht). reflexivity.
Qed.
End Api.
