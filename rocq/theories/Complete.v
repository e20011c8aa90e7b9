(** The other direction of Accept.v: a document that matches the declaration is
    accepted, if the callbacks agree. *)

From Verif Require Import Spec Model Infra Total Safe Refine Main DenFacts Accept.
Local Open Scope string_scope.
Set Implicit Arguments.

(** Callbacks that always return true and never pop; values that can be stored. *)
Definition agreeable (P : prog) : Prop :=
  (forall c l o, a_res (p_cb P c l o) = CTrue /\ a_pops (p_cb P c l o) = []) /\
  forall v, p_store P v = None.

Section Complete.
Variable P : prog.
Hypothesis HP : agreeable P.
Notation body := (Spec.body P (den P)).

Lemma invoke_agree cb o msg l k : exists a l1, a_pops a = [] /\ invoke P cb o msg l k = k a l1.
Proof.
  unfold invoke. destruct cb as [c|].
  - destruct (proj1 HP c l o) as [H1 H2]. rewrite H1. eauto.
  - exists nothing, l. auto.
Qed.

Lemma storing_agree v : storing P v = inr v.
Proof. unfold storing. rewrite (proj2 HP). auto. Qed.

Lemma pops_none a w : a_pops a = [] -> pops a w = w.
Proof. unfold pops. intros ->. reflexivity. Qed.

(** The view of a parser, and the validation's flag. *)
Definition srel (s : schema) (w : view) (b : bool) : Prop :=
  v_set w = b /\ (v_val w <> None <-> b && stores s = true).

Lemma srel_fresh s : srel s (fresh s) false.
Proof. unfold srel. destruct s; simpl; intuition congruence. Qed.

Inductive srels : list (mspec * schema) -> list view -> list bool -> Prop :=
| srels_nil : srels [] [] []
| srels_cons m c ms w kids b bs :
    srel c w b -> srels ms kids bs -> srels ((m, c) :: ms) (w :: kids) (b :: bs).
Hint Constructors srels : core.

Lemma srels_fresh ms : srels ms (map (fun mp => fresh (snd mp)) ms) (map (fun _ => false) ms).
Proof. induction ms as [|[m c] ms IH]; simpl; auto using srel_fresh. Qed.

Lemma srels_set ms kids bs : srels ms kids bs -> forall i m c w b,
  nth_error ms i = Some (m, c) -> srel c w b -> srels ms (set_nth i w kids) (set_nth i b bs).
Proof.
  induction 1 as [|m0 c0 ms w0 kids b0 bs H0 H IH]; intros [|i] m c w b Hn Hr; simpl in *; try discriminate.
  - inversion Hn; subst. auto.
  - eauto.
Qed.

Lemma satisfied_value m c w b n : srel c w b -> satisfied true m c b = true ->
  exists v, member_value P m w n = inr v.
Proof.
  intros (H1 & H2). unfold member_value, satisfied. rewrite H1. destruct b.
  - intros Hs. simpl in H2. rewrite Hs in H2. destruct (v_val w); [rewrite storing_agree; eauto|]. exfalso.
    destruct H2 as [_ H2]. apply H2; auto.
  - destruct (m_opt m); simpl; [|discriminate]. destruct (m_def m); [rewrite storing_agree; eauto|]. discriminate.
Qed.

Lemma satisfied_plain m c w b : srel c w b -> satisfied false m c b = true -> v_set w || m_opt m = true.
Proof. intros (H1 & H2). unfold satisfied. rewrite H1. auto. Qed.

Lemma missing_none ms kids bs : srels ms kids bs -> all_satisfied false ms bs = true -> missing ms kids = None.
Proof.
  induction 1 as [|m c ms w kids b bs H0 H IH]; cbn [missing all_satisfied]; auto.
  intros Hs. apply andb_true_iff in Hs. destruct Hs as [Hs1 Hs2]. rewrite IH by auto.
  rewrite (satisfied_plain _ H0 Hs1). auto.
Qed.

Lemma values_some ms kids bs : srels ms kids bs -> all_satisfied true ms bs = true ->
  exists vs, member_values P ms kids = inr vs.
Proof.
  induction 1 as [|m c ms w kids b bs H0 H IH]; cbn [member_values all_satisfied]; eauto.
  intros Hs. apply andb_true_iff in Hs. destruct Hs as [Hs1 Hs2]. destruct (IH Hs2) as [vs ->].
  destruct (satisfied_value m (name_text P (m_name m)) H0 Hs1) as [v ->]. eauto.
Qed.

Definition accepted (s : schema) (o : out) (b : bool) : Prop :=
  exists l w, o = (l, inr w) /\ srel s w b.

Lemma end_object_c k ms ign ocb cb empty kids bs l b : srels ms kids bs ->
  end_object_v k ms empty bs = Some b ->
  accepted (SObj k ms ign ocb) (end_object P k ms cb empty kids l) b.
Proof.
  intros Hr. unfold end_object, end_object_v, accepted. destruct empty.
  - intros H; inversion H; subst. exists l. eexists; split; auto. unfold srel; simpl. intuition congruence.
  - destruct k.
    + destruct (all_satisfied false ms bs) eqn:Hs; [|discriminate]. intros H; inversion H; subst.
      rewrite (missing_none Hr Hs).
      match goal with |- context [invoke P cb ?o ?m l ?k] =>
        destruct (invoke_agree cb o m l k) as (a & l1 & Ha & ->) end.
      exists l1. eexists; split; eauto. rewrite pops_none by auto. unfold srel; simpl. intuition congruence.
    + destruct (all_satisfied true ms bs) eqn:Hs; [|discriminate]. intros H; inversion H; subst.
      destruct (values_some Hr Hs) as [vs ->].
      match goal with |- context [invoke P cb ?o ?m l ?k] =>
        destruct (invoke_agree cb o m l k) as (a & l1 & Ha & ->) end.
      exists l1. eexists; split; eauto. unfold srel; simpl. intuition congruence.
    + destruct (all_satisfied false ms bs) eqn:Hs; [|discriminate]. intros H; inversion H; subst.
      rewrite (missing_none Hr Hs).
      match goal with |- context [invoke P cb ?o ?m l ?k] =>
        destruct (invoke_agree cb o m l k) as (a & l1 & Ha & ->) end.
      exists l1. eexists; split; eauto. rewrite pops_none by auto. unfold srel; simpl. intuition congruence.
Qed.

Lemma end_union_c st cb i m c t tm ms ucb w b kids l : srel c w b -> satisfied st m c b = true ->
  accepted (SUni st t tm ms ucb) (end_union P st cb i m w kids l) true.
Proof.
  intros Hr Hs. unfold end_union, accepted. destruct st.
  - destruct (satisfied_value m ("#" ++ n2s i) Hr Hs) as [v ->].
    match goal with |- context [invoke P cb ?o ?m l ?k] =>
      destruct (invoke_agree cb o m l k) as (a & l1 & Ha & ->) end.
    exists l1. eexists; split; eauto. unfold srel; simpl. intuition congruence.
  - rewrite (satisfied_plain _ Hr Hs).
    match goal with |- context [invoke P cb ?o ?m l ?k] =>
      destruct (invoke_agree cb o m l k) as (a & l1 & Ha & ->) end.
    exists l1. eexists; split; eauto. rewrite pops_none by auto. unfold srel; simpl. intuition congruence.
Qed.

Lemma end_map_c st e ecb cb empty vals l :
  accepted (SMp st e ecb cb) (end_map P st cb empty vals l) true.
Proof.
  unfold end_map, accepted.
  match goal with |- context [invoke P cb ?o ?m l ?k] =>
    destruct (invoke_agree cb o m l k) as (a & l1 & Ha & ->) end.
  exists l1. eexists; split; eauto. rewrite pops_none by auto. unfold srel; simpl. destruct st; intuition congruence.
Qed.

Definition C (j : json) : Prop := forall s l b, verdict j s = Some b -> accepted s (den P j s l) b.

Lemma select_c rest restv st t tm ms cb x l b :
  (forall c l b, restv c = Some b -> accepted c (rest c l) b) ->
  select_v restv st t ms x = Some b ->
  b = true /\ forall ucb, accepted (SUni st t tm ms ucb) (select P rest st t ms cb x l) true.
Proof.
  intros Hrest. unfold select, select_v.
  destruct (vtype_eqb (ty_of x) t); [|discriminate].
  destruct (index_of x ms) as [i|]; [|discriminate].
  destruct (nth_error ms i) as [[m c]|] eqn:Hn; [|discriminate].
  destruct (restv c) as [b'|] eqn:Hb; [|discriminate].
  destruct (satisfied st m c b') eqn:Hs; [|discriminate].
  intros H; inversion H; subst. split; auto. intros ucb.
  destruct (Hrest c l b' Hb) as (l1 & w & -> & Hr). cbn [andthen].
  eapply end_union_c; eauto.
Qed.

Lemma value_c rest restv c v l f b : C v ->
  (forall c l b, restv c = Some b -> accepted c (rest c l) b) ->
  value_v verdict restv c v = Some (f, b) ->
  exists l' w, value_of P (den P) rest c v l = (l', inr (f, w)) /\ srel c w b.
Proof.
  intros HC Hrest. unfold value_of, value_v.
  destruct (embedded c v) as [[[[[st t] ms] cb] x]|] eqn:He.
  - destruct c; simpl in He; try discriminate. destruct v; try discriminate.
    destruct (String.eqb tm ""); inversion He; subst.
    destruct (select_v restv st t ms x) as [b'|] eqn:Hs; simpl; [|discriminate].
    intros H; inversion H; subst.
    assert (Hsel : b = true /\ forall ucb, accepted (SUni st t tm ms ucb) (select P rest st t ms cb x l) true)
      by (eapply select_c; eauto).
    destruct Hsel as [-> Hsel]. destruct (Hsel cb) as (l' & w & -> & Hr). cbn [andthen]. eauto.
  - destruct (verdict v c) as [b'|] eqn:Hb; simpl; [|discriminate]. intros H; inversion H; subst.
    destruct (HC c l b Hb) as (l' & w & -> & Hr). cbn [andthen]. eauto.
Qed.

Definition kids_srel (s : schema) (kids : list view) (bs : list bool) : Prop :=
  match s with SObj _ ms _ _ => srels ms kids bs | _ => True end.

Lemma kids_srel_fresh s : kids_srel s (fresh_kids s) (no_kids s).
Proof. destruct s; simpl; auto. apply srels_fresh. Qed.

Lemma body_c ps : Forall (fun kv => C (snd kv)) ps -> forall s empty kids vals l bs b,
  kids_srel s kids bs -> body_v verdict ps s empty bs = Some b ->
  accepted s (body ps s empty kids vals l) b.
Proof.
  induction 1 as [|[k v] ps Hv Hps IH]; intros s empty kids vals l bs b Hk.
  - destruct s; simpl; try discriminate.
    + intros H; inversion H; subst. apply end_map_c.
    + intros H. eapply end_object_c; eauto.
    + intros H. inversion H; subst. exists l. eexists. split; auto. unfold srel; simpl. intuition congruence.
  - simpl in Hv. rewrite body_cons, body_v_cons. cbn zeta.
    assert (Hrest : forall c l b, body_v verdict ps c true (no_kids c) = Some b ->
                                  accepted c (body ps c true (fresh_kids c) [] l) b).
    { intros c l0 b0. apply IH. apply kids_srel_fresh. }
    destruct s; try discriminate.
    + destruct (value_v verdict _ s v) as [[f b']|] eqn:Hvv; [|discriminate].
      destruct (@value_c (fun c l => body ps c true (fresh_kids c) [] l) _ _ _ l _ _ Hv Hrest Hvv) as (l1 & w & -> & Hr).
      cbn [andthen fst snd].
      destruct (negb store || (b' && stores s)) eqn:Hst; [|discriminate].
      assert (Hel : exists l2 vals', end_map_elem P store ecb k w vals l1 = (l2, inr vals')).
      { unfold end_map_elem.
        match goal with |- context [invoke P ecb ?o ?m l1 ?k] =>
          destruct (invoke_agree ecb o m l1 k) as (a & l2 & Ha & ->) end.
        cbn [andthen]. rewrite pops_none by auto. destruct store; [|eauto]. simpl in Hst.
        destruct Hr as [_ Hr]. rewrite Hst in Hr. destruct (v_val w); [rewrite storing_agree; eauto|].
        exfalso. destruct Hr as [_ Hr]. apply Hr; auto. }
      destruct Hel as (l2 & vals' & ->). cbn [andthen]. destruct f.
      * intros H; inversion H; subst. apply end_map_c.
      * apply IH. exact I.
    + destruct (index_of (SStr k) ms) as [i|].
      * destruct (nth_error ms i) as [[m c]|] eqn:Hn; [|discriminate].
        destruct (value_v verdict _ c v) as [[f b']|] eqn:Hvv; [|discriminate].
        destruct (@value_c (fun c l => body ps c true (fresh_kids c) [] l) _ _ _ l _ _ Hv Hrest Hvv) as (l1 & w & -> & Hr).
        cbn [andthen fst snd]. destruct f.
        -- intros H. eapply end_object_c; [|exact H]. eapply srels_set; eauto.
        -- apply IH. eapply srels_set; eauto.
      * destruct ign; [|discriminate]. apply IH. auto.
    + destruct (String.eqb tm ""); [discriminate|]. destruct (String.eqb k tm); [|discriminate].
      destruct v; try discriminate. intros H.
      assert (Hsel : b = true /\ forall ucb, accepted (SUni store t tm ms ucb)
          (select P (fun c l => body ps c true (fresh_kids c) [] l) store t ms cb x l) true)
        by (eapply select_c; [|exact H]; exact Hrest).
      destruct Hsel as [-> Hsel]. apply Hsel.
Qed.

Lemma elems_c st e cb js : Forall C js -> forall empty vals l,
  forallb (fun j => is_null j || match verdict j e with Some b => negb st || (b && stores e) | None => false end) js = true ->
  accepted (SArr st e cb) (elems P (den P) st e cb js empty vals l) true.
Proof.
  induction 1 as [|j js Hj _ IH]; intros empty vals l H.
  - simpl. unfold end_array, accepted. destruct st;
    match goal with |- context [invoke P cb ?o ?m l ?k] =>
      destruct (invoke_agree cb o m l k) as (a & l1 & Ha & ->) end;
    exists l1; eexists; (split; [eauto|]); rewrite ?pops_none by auto; unfold srel; simpl; intuition congruence.
  - cbn [forallb] in H. apply andb_true_iff in H. destruct H as [H1 H2]. destruct (is_null j) eqn:Hn.
    + destruct j; try discriminate. cbn [elems]. apply IH; auto.
    + rewrite elems_cons by auto. simpl in H1. destruct (verdict j e) as [b|] eqn:Hb; [|discriminate].
      destruct (Hj e l b Hb) as (l1 & w & -> & Hr). cbn [andthen]. destruct st; [|apply IH; auto].
      simpl in H1. destruct Hr as [_ Hr]. rewrite H1 in Hr. destruct (v_val w); [rewrite storing_agree; apply IH; auto|].
      exfalso. destruct Hr as [_ Hr]. apply Hr; auto.
Qed.

(** A matching document is accepted. *)
Theorem verdict_complete j : C j.
Proof.
  induction j as [|x|js IH|ps IH] using json_ind'; intros s l b H.
  - simpl in H. inversion H; subst. exists l. eexists; split; [reflexivity|apply srel_fresh].
  - simpl in *. destruct s; try discriminate.
    + destruct (vtype_eqb (ty_of x) t); [|discriminate]. inversion H; subst. unfold end_value, accepted.
      match goal with |- context [invoke P cb ?o ?m l ?k] =>
        destruct (invoke_agree cb o m l k) as (a & l1 & Ha & ->) end.
      exists l1; eexists; split; eauto. unfold srel; simpl. intuition congruence.
    + inversion H; subst. exists l. eexists; split; eauto. unfold srel; simpl. intuition congruence.
  - destruct s; simpl in H; try discriminate.
    + destruct (forallb _ js) eqn:Hf; [|discriminate]. inversion H; subst. apply elems_c; auto.
    + inversion H; subst. exists l. eexists; split; [reflexivity|]. unfold srel; simpl. intuition congruence.
  - destruct s; cbn [verdict] in H; try discriminate; cbn [den].
    + eapply body_c; [exact IH| |exact H]. exact I.
    + eapply body_c; [exact IH| |exact H]. apply kids_srel_fresh.
    + destruct (String.eqb tm ""); [discriminate|]. eapply body_c; [exact IH| |exact H]. exact I.
    + inversion H; subst. exists l. eexists; split; [reflexivity|]. unfold srel; simpl. intuition congruence.
Qed.
End Complete.

(** Acceptance of a document by a declaration, exactly. *)
Theorem accepts_iff P j s l : agreeable P ->
  (exists l' w, den P j s l = (l', inr w)) <-> verdict j s <> None.
Proof.
  intros HP. split.
  - intros (l' & w & H). destruct (@verdict_sound P j s l l' w H) as (b & -> & _). discriminate.
  - intros H. destruct (verdict j s) as [b|] eqn:Hb; [|congruence].
    destruct (@verdict_complete P HP j s l b Hb) as (l' & w & Hd & _). eauto.
Qed.
