(** The lockstep of Lock.v for documents given to parse() and finish(). *)

From Verif Require Import Spec Model Infra Total Safe Refine Main Api ApiProofs History Unset MoveState Same Lock.
Local Open Scope string_scope.
Set Implicit Arguments.

Section LockApi.
Variable tk : tokenizer.
Variable E : env.
Variable g : nat.
Variable yerr : list ascii -> string.
Variable flat : bool.
Hypothesis Hcb : same_eyes E.
Notation api := (api tk).
Notation stdv := (stdv g flat).

Definition frame (a a' : api) : Prop :=
  a_h a = a_h a' /\ a_data a = a_data a' /\ a_reset a = a_reset a' /\ a_err a = a_err a'.

Definition yboth (Q : mstate -> mstate -> Prop) (V : Prop) (y y' : yres tk) : Prop :=
  match y, y' with
  | YOk a, YOk a' => frame a a' /\ Q (a_m a) (a_m a')
  | YErr a, YErr a' =>
      frame a a' /\ m_log (a_m a) = m_log (a_m a') /\ (V -> view_of (m_root (a_m a)) = view_of (m_root (a_m a')))
  | YTerm _, YTerm _ => True
  | YUB _ u, YUB _ u' => u = u'
  | YFuel _, YFuel _ => True
  | _, _ => False
  end.

Definition aboth (Q : api -> api -> Prop) (V : Prop) (r r' : ares tk) : Prop :=
  match r, r' with
  | AOk a, AOk a' => Q a a'
  | AThrow x a, AThrow x' a' =>
      x = x' /\ m_log (a_m a) = m_log (a_m a') /\ (V -> view_of (m_root (a_m a)) = view_of (m_root (a_m a')))
  | ATerm _, ATerm _ => True
  | AUB _ u, AUB _ u' => u = u'
  | AFuel _, AFuel _ => True
  | _, _ => False
  end.

Lemma after_both x W K ts k (V : Prop) a a' r r' : frame a a' ->
  both (stdv (W && nil_b ts) k) (opens_root W K ts) r r' ->
  (V -> x = None \/ (exists e m, r = RThrow e m) -> opens_root W K ts) ->
  yboth (fun m m' => stdv (W && nil_b ts) k m m' /\ exists st, x = Some st) V (after r x a) (after r' x a').
Proof.
  intros (F1 & F2 & F3 & F4) H HV. destruct r as [m|e m|u|], r' as [m'|e' m'|u'|]; simpl in H; try tauto; cbn [after].
  - destruct x as [st|]; cbn [yboth].
    + split; [unfold frame; simpl; auto|]. split; [exact H|eauto].
    + split; [unfold frame; simpl; auto|]. simpl. split; [apply (stdv_log H)|].
      intros Y. specialize (HV Y (or_introl eq_refl)). apply stdv_view with (g := g) (flat := flat) (k := k).
      destruct W; [|exact H]. destruct (HV eq_refl) as (t & r & -> & _). exact H.
  - destruct H as (<- & H1 & H2). cbn [yboth]. split; [unfold frame; simpl; auto|]. simpl. split; [exact H1|]. intros Y. apply H2, HV; eauto.
Qed.

(** The tokens of the rest of a text from a state of the tokenizer. *)
Definition rest (bs : list ascii) (st : tk_st tk) : list token :=
  match tokens tk bs st with
  | (ts, None) => ts
  | (ts, Some st') => (ts ++ fst (tk_fin tk st'))%list
  end.

Lemma rest_init bs : rest bs (tk_init tk) = fst (tokenize tk bs).
Proof.
  unfold rest, tokenize. destruct (tokens tk bs (tk_init tk)) as [ts [st|]]; auto. destruct (tk_fin tk st); auto.
Qed.

Lemma rest_app bs cs st : rest (bs ++ cs) st =
  match tokens tk bs st with
  | (ts, None) => ts
  | (ts, Some st') => (ts ++ rest cs st')%list
  end.
Proof.
  unfold rest. rewrite tokens_app. destruct (tokens tk bs st) as [ts [st'|]]; auto.
  destruct (tokens tk cs st') as [ts' [st2|]]; auto. rewrite app_assoc. auto.
Qed.

Lemma throw_both Q (V : Prop) M a a' : frame a a' -> m_log (a_m a) = m_log (a_m a') ->
  (V -> view_of (m_root (a_m a)) = view_of (m_root (a_m a'))) ->
  aboth Q V (throw_parsing_error yerr M a) (throw_parsing_error yerr M a').
Proof.
  intros (F1 & F2 & F3 & F4) Hl Hv. unfold throw_parsing_error. rewrite <- F2, <- F4.
  destruct (a_data a) as [[b [|n]]|]; try (simpl; auto; fail).
  destruct (M b) as [bytes|]; [|simpl; auto]. destruct (Nat.leb (S n) (List.length bytes)); simpl; auto.
Qed.

Definition fin_ok (V : Prop) (a a' : api) : Prop :=
  m_log (a_m a) = m_log (a_m a') /\ (V -> view_of (m_root (a_m a)) = view_of (m_root (a_m a'))).

(** A parse() call in the middle of a document. *)
Definition mid (W k : bool) (K : kind) (st : tk_st tk) (a a' : api) : Prop :=
  frame a a' /\ a_h a = HLive tk st /\ a_reset a = false /\ stdv W k (a_m a) (a_m a') /\ kind_of (m_root (a_m a)) = K.

Lemma run_kind ts m : match run E g ts m with ROk m' => kind_of (m_root m') = kind_of (m_root m) | _ => True end.
Proof.
  revert m. induction ts as [|t r IH]; intros m; cbn [run]; auto.
  pose proof (exec_le E g (fuel_for m) (CDisp t) m) as H. unfold dispatch. destruct (exec E g (fuel_for m) (CDisp t) m) as [m1|? ?|?|]; simpl; auto.
  simpl in H. specialize (IH m1). destruct (run E g r m1); auto. rewrite IH. symmetry. apply kind_schema. symmetry. symmetry. eapply le_schema; eauto.
Qed.

Lemma feed_mid W k K st a a' bs tail (V : Prop) : mid W k K st a a' ->
  let ts := fst (tokens tk bs st) in
  let x := snd (tokens tk bs st) in
  values_lead k (ts ++ tail) -> (flat = true \/ ~ In TNull ts) ->
  (V -> opens_root W K (match x with None => ts | _ => ts ++ tail end)) ->
  yboth (fun m m' => (stdv (W && nil_b ts) (after_key k ts) m m' /\ kind_of (m_root m) = K) /\ exists st', x = Some st') V
    (feed E g bs a) (feed E g bs a').
Proof.
  intros (F & Hh & Hr & Hs & HK) ts x Hp Hn HV. apply values_lead_app in Hp. destruct Hp as [Hp _].
  pose proof F as (F1 & _). rewrite (feed_run E g bs a Hh), (feed_run E g bs a' (st := st)) by congruence.
  fold ts x. pose proof (lock_run Hcb _ Hs Hp Hn) as H. rewrite HK in H.
  pose proof (run_kind ts (a_m a)) as Hk.
  assert (HV' : V -> x = None \/ (exists e m, run E g ts (a_m a) = RThrow e m) -> opens_root W K ts).
  { intros Y Hx. specialize (HV Y). intros HW. destruct (HV HW) as (t & r & E1 & E2).
    destruct Hx as [Hx|(e & m & Hx)]; [rewrite Hx in E1; eauto|].
    destruct x; [|eauto]. destruct ts as [|t9 r9]; [discriminate Hx|]. exists t9, r9. split; auto. simpl in E1. congruence. }
  pose proof (@after_both x W K ts (after_key k ts) V a a' _ _ F H HV') as Y.
  destruct (run E g ts (a_m a)) as [m|? ?|?|], (run E g ts (a_m a')) as [m'|? ?|?|]; try exact Y; cbn [after] in *.
  destruct x; try exact Y. cbn [yboth] in *. simpl in *. rewrite HK in Hk. tauto.
Qed.

Lemma finish_mid W k K st a a' M (V : Prop) : mid W k K st a a' ->
  values_lead k (fst (tk_fin tk st)) -> (flat = true \/ ~ In TNull (fst (tk_fin tk st))) ->
  (V -> opens_root W K (fst (tk_fin tk st))) ->
  aboth (fin_ok V) V (Api.finish E g yerr M a) (Api.finish E g yerr M a').
Proof.
  intros (F & Hh & Hr & Hs & HK) Hp Hn HV. unfold Api.finish.
  pose proof F as (F1 & F2 & F3 & F4).
  assert (Fr : frame (with_reset a true) (with_reset a' true)) by (unfold frame; simpl; auto).
  rewrite (complete_run E g (with_reset a true) (st := st)), (complete_run E g (with_reset a' true) (st := st)) by (simpl; congruence).
  set (ts := fst (tk_fin tk st)) in *. set (x := snd (tk_fin tk st)).
  pose proof (lock_run Hcb _ Hs Hp Hn) as H. rewrite HK in H.
  pose proof (@after_both x W K ts (after_key k ts) V _ _ _ _ Fr H (fun Y _ => HV Y)) as Y.
  cbn [a_m with_reset] in *.
  destruct (after (run E g ts (a_m a)) x (with_reset a true)) as [b|b| |u|], (after (run E g ts (a_m a')) x (with_reset a' true)) as [b'|b'| |u'|];
    simpl in Y; try tauto; cbn [lift_y].
  - destruct Y as (_ & Y & _). destruct (stdv_log Y) as [L1 L2]. unfold empty_stack. rewrite <- L2.
    assert (Hv : V -> view_of (m_root (a_m b)) = view_of (m_root (a_m b'))).
    { intros HV0. specialize (HV HV0). eapply stdv_view with (g := g) (flat := flat).
      destruct W; [|exact Y]. destruct (HV eq_refl) as (t & r & Ets & _). rewrite Ets in *. exact Y. }
    destruct (m_stack (a_m b)); simpl; unfold fin_ok; auto.
  - destruct Y as (Y1 & Y2 & Y3). apply throw_both; auto.
  - simpl. congruence.
Qed.

Lemma parse_mid W k K st a a' M b bs tail (V : Prop) : mid W k K st a a' -> M b = Some bs ->
  let ts := fst (tokens tk bs st) in
  let x := snd (tokens tk bs st) in
  values_lead k (ts ++ tail) -> (flat = true \/ ~ In TNull ts) ->
  (V -> opens_root W K (match x with None => ts | _ => ts ++ tail end)) ->
  aboth (fun b b' => exists st', x = Some st' /\ mid (W && nil_b ts) (after_key k ts) K st' b b') V
    (parse E g yerr M b a) (parse E g yerr M b a').
Proof.
  intros H Hb ts x Hp Hn HV. unfold parse. rewrite Hb.
  set (a1 := mkApi (a_m a) (a_h a) (Some (b, List.length bs)) (a_reset a) (a_err a)).
  set (a1' := mkApi (a_m a') (a_h a') (Some (b, List.length bs)) (a_reset a') (a_err a')).
  assert (H1 : mid W k K st (do_reset a1) (do_reset a1')).
  { destruct H as ((F1 & F2 & F3 & F4) & Hh & Hr & Hs & HK). unfold do_reset, a1, a1'. cbn [a_reset]. rewrite <- F3, Hr.
    split; [unfold frame; simpl; auto|]. simpl. auto. }
  pose proof (@feed_mid W k K st _ _ bs tail V H1 Hp Hn HV) as Y. cbn zeta in Y. fold ts x in Y.
  pose proof (yres_data E g bs (do_reset a1)) as Yd.
  pose proof (feed_run E g bs (do_reset a1) (proj1 (proj2 H1))) as Yf. fold ts x in Yf.
  destruct (feed E g bs (do_reset a1)) as [c|c| |u|], (feed E g bs (do_reset a1')) as [c'|c'| |u'|]; simpl in Y; try tauto; cbn [lift_y].
  - destruct Y as (Y1 & (Y2 & Y3) & st' & Y4). simpl. exists st'. split; auto. split; [exact Y1|]. split; [|split].
    + destruct (run E g ts (a_m (do_reset a1))); cbn [after] in Yf; try discriminate Yf. rewrite Y4 in Yf. injection Yf as ->. reflexivity.
    + destruct Yd as [_ Yd]. rewrite Yd. apply H1.
    + auto.
  - destruct Y as ((G1 & G2 & G3 & G4) & Y2 & Y3). apply throw_both; auto. unfold frame; simpl; auto.
  - simpl. congruence.
Qed.

Lemma document_mid bufs : forall W k K st a a' M bs (V : Prop), mid W k K st a a' -> content M bufs = Some bs ->
  values_lead k (rest bs st) -> (flat = true \/ ~ In TNull (rest bs st)) -> (V -> opens_root W K (rest bs st)) ->
  aboth (fin_ok V) V (document E g yerr M bufs a) (document E g yerr M bufs a').
Proof.
  induction bufs as [|b bufs IH]; intros W k K st a a' M bs V H Hc Hp Hn HV.
  - simpl in Hc. injection Hc as <-. unfold rest in *. cbn [tokens] in *. rewrite app_nil_l in *. unfold document. cbn [parse_all].
    eapply finish_mid; eauto.
  - apply content_cons in Hc. destruct Hc as (x & y & Hx & Hy & ->). rewrite rest_app in *.
    unfold document. cbn [parse_all]. destruct (tokens tk x st) as [ts z] eqn:Et.
    assert (Hn1 : flat = true \/ ~ In TNull ts).
    { destruct Hn as [|Hn]; auto. right. intros K0. apply Hn. destruct z; auto. apply in_or_app. auto. }
    assert (Y : aboth (fun b b' => exists st', z = Some st' /\ mid (W && nil_b ts) (after_key k ts) K st' b b') V
                  (parse E g yerr M b a) (parse E g yerr M b a')).
    { pose proof (@parse_mid W k K st a a' M b x (match z with Some st' => rest y st' | None => [] end) V H Hx) as Y.
      rewrite Et in Y. cbn [fst snd] in Y. apply Y; auto.
      - destruct z; auto. rewrite app_nil_r. auto.
      - destruct z; auto. }
    destruct (parse E g yerr M b a) as [c|e c| |u|], (parse E g yerr M b a') as [c'|e' c'| |u'|]; simpl in Y; try tauto; try exact Y.
    destruct Y as (st' & -> & Ym). apply values_lead_app in Hp. destruct Hp as [_ Hp].
    eapply IH; [exact Ym|exact Hy|exact Hp| |].
    + destruct Hn as [|Hn]; auto. right. intros K0. apply Hn. apply in_or_app. auto.
    + intros HV0 HW. apply andb_true_iff in HW. destruct HW as [HW1 HW2]. destruct ts; [|discriminate].
      destruct (HV HV0 HW1) as (t & r & E1 & E2). eauto.
Qed.

(** ** A document after a history, and the same document given to a new parser *)
Definition same_reply (V : Prop) (r r' : ares tk) : Prop :=
  match r, r' with
  | AOk a, AOk a' =>
      m_log (a_m a) = m_log (a_m a') /\ (V -> view_of (m_root (a_m a)) = view_of (m_root (a_m a')))
  | AThrow x a, AThrow x' a' =>
      x = x' /\ m_log (a_m a) = m_log (a_m a') /\ (V -> view_of (m_root (a_m a)) = view_of (m_root (a_m a')))
  | _, _ => False
  end.

Lemma regular_no_arr_uni s : regular flat s = true -> no_arr_uni s = true.
Proof.
  induction s as [| ? e ? IH| | ? ? ? ? IH | ? ? ? ? ? IH |] using schema_ind'; simpl; auto.
  - intros H. apply andb_true_iff in H. destruct H as [H1 H2]. rewrite IH; auto. destruct e; auto; discriminate.
  - intros H. induction IH as [|mp r Hq _ IHr]; simpl in *; auto. apply andb_true_iff in H. rewrite Hq, IHr; tauto.
  - intros H. induction IH as [|mp r Hq _ IHr]; simpl in *; auto. apply andb_true_iff in H. rewrite Hq, IHr; tauto.
Qed.

Lemma open_mid a a' s b n : good g s (m_root (a_m a)) -> good g s (m_root (a_m a')) -> regular flat s = true ->
  m_log (a_m a) = m_log (a_m a') -> at_start a -> at_start a' ->
  mid true true (kind_s s) (tk_init tk)
    (do_reset (mkApi (a_m a) (a_h a) (Some (b, n)) (a_reset a) (a_err a)))
    (do_reset (mkApi (a_m a') (a_h a') (Some (b, n)) (a_reset a') (a_err a'))).
Proof.
  intros (G1 & G2 & G3) (G1' & G2' & G3') Ht Hl Ha Ha'.
  assert (HX : forall c : api, at_start c -> do_reset (mkApi (a_m c) (a_h c) (Some (b, n)) (a_reset c) (a_err c)) =
             mkApi (dispatcher_reset (a_m c)) (HLive tk (tk_init tk)) (Some (b, n)) false "").
  { intros [m h d r e] Hc. unfold do_reset. cbn [a_m a_h a_reset a_err]. destruct r; auto.
    destruct Hc as [Hc|(H1 & H2 & H3)]; [discriminate|]. simpl in *. subst. destruct m; simpl in *; subst. auto. }
  rewrite !HX by auto. split; [unfold frame; simpl; auto|]. split; [auto|]. split; [auto|]. split.
  - split; [simpl; constructor|]. exists Fresh. split.
    + split; simpl; auto. constructor. split; [congruence|]. split; [congruence|]. auto.
    + intros _. split; auto. split; [simpl; discriminate|]. discriminate.
  - simpl. rewrite <- G1. destruct (m_root (a_m a)); auto.
Qed.

Theorem same_document a a' s M b bufs bs : good g s (m_root (a_m a)) -> good g s (m_root (a_m a')) -> regular flat s = true ->
  m_log (a_m a) = m_log (a_m a') -> at_start a -> at_start a' ->
  content M (b :: bufs) = Some bs -> values_lead true (fst (tokenize tk bs)) ->
  (flat = true \/ ~ In TNull (fst (tokenize tk bs))) ->
  let V := exists t r, fst (tokenize tk bs) = t :: r /\ opener (kind_s s) t = true in
  aboth (fin_ok V) V (document E g yerr M (b :: bufs) a) (document E g yerr M (b :: bufs) a').
Proof.
  intros G G' Ht Hl Ha Ha' Hc Hp Hn V.
  pose proof Hc as Hc0. apply content_cons in Hc. destruct Hc as (x & y & Hx & Hy & ->).
  pose proof (@open_mid a a' s b (List.length x) G G' Ht Hl Ha Ha') as Hm.
  assert (Hd : forall c : api, document E g yerr M (b :: bufs) c =
    document E g yerr M (b :: bufs) (do_reset (mkApi (a_m c) (a_h c) (Some (b, List.length x)) (a_reset c) (a_err c)))).
  { intros c. unfold document. cbn [parse_all]. unfold parse. rewrite Hx. unfold do_reset. cbn [a_reset]. destruct (a_reset c); reflexivity. }
  rewrite (Hd a), (Hd a'). rewrite <- rest_init in *.
  eapply document_mid; eauto. intros HV _. rewrite rest_init. exact HV.
Qed.
End LockApi.

(** After any history, any text. *)
Theorem history_reply (tk : tokenizer) E g yerr flat s (a : api tk) M b bufs bs :
  same_eyes E -> regular flat s = true -> history g yerr s a -> at_start a ->
  content M (b :: bufs) = Some bs -> values_lead true (fst (tokenize tk bs)) ->
  (flat = true \/ ~ In TNull (fst (tokenize tk bs))) ->
  same_reply (exists t r, fst (tokenize tk bs) = t :: r /\ opener (kind_s s) t = true)
    (document E g yerr M (b :: bufs) a) (document E g yerr M (b :: bufs) (start tk g (mk s) (m_log (a_m a)))).
Proof.
  intros Hcb Ht Hh Ha Hc Hp Hn. destruct (history_inv Hh) as (Hg & _).
  assert (Hn0 : history g yerr s (start tk g (mk s) (m_log (a_m a)))) by constructor.
  destruct (history_inv Hn0) as (Hg0 & _).
  assert (Ha0 : at_start (start tk g (mk s) (m_log (a_m a)))) by (right; auto).
  pose proof (@same_document tk E g yerr flat Hcb a _ s M b bufs bs Hg Hg0 Ht eq_refl Ha Ha0 Hc Hp Hn) as Y. cbn zeta in Y.
  pose proof (document_ok yerr E M (b :: bufs) (start tk g (mk s) (m_log (a_m a))) (regular_no_arr_uni _ _ Ht) (m_ok_new tk g s _)) as K.
  pose proof (document_observe E g yerr M b bufs Ha0 Hc) as Ho.
  destruct (document E g yerr M (b :: bufs) (start tk g (mk s) (m_log (a_m a)))) as [c'|e' c'| |u'|]; try tauto;
    destruct (document E g yerr M (b :: bufs) a) as [c|e c| |u|]; simpl in Y; try tauto.
  subst. exfalso. unfold doc_obs in Ho. destruct (tokenize tk bs) as [ts x]. cbn [observe] in Ho.
    pose proof (@run_m_ok g E s ts (mkS (m_root (a_m (start tk g (mk s) (m_log (a_m a))))) [[]] (m_log (a_m (start tk g (mk s) (m_log (a_m a)))))) (regular_no_arr_uni _ _ Ht) (m_ok_new tk g s _)) as R.
    destruct (run E g ts _); try tauto; [destruct x; [destruct (empty_stack _)|]|]; discriminate Ho.
Qed.
