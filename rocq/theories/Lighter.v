(** A declaration that stores less accepts what the storing one accepted. *)

From Verif Require Import Spec Model Infra Total Safe Refine Main DenFacts Accept Newer.
Local Open Scope string_scope.
Set Implicit Arguments.

(** ** Specification *)

(** [lighter need s s']: [s'] is [s] with parsers that store (SArray, SMap, SAutoObject,
    SCustomObject, SUnion) replaced, anywhere in it, by those that do not (Array, Map,
    Object, Union), but not where a value is needed ([need]) because the parser around it
    stores it. *)
Inductive lighter : bool -> schema -> schema -> Prop :=
| li_value need t cb : lighter need (SVal t cb) (SVal t cb)
| li_ignore need : lighter need SIgn SIgn
| li_array need st st' e e' cb cb' : (st' = true -> st = true) -> (need = true -> st' = st) -> lighter st' e e' ->
    lighter need (SArr st e cb) (SArr st' e' cb')
| li_map need st st' e e' ecb ecb' cb cb' : (st' = true -> st = true) -> (need = true -> st' = st) -> lighter st' e e' ->
    lighter need (SMp st e ecb cb) (SMp st' e' ecb' cb')
| li_object need k k' ms ms' ign cb cb' : k' = k \/ k' = OPlain /\ need = false -> lmembers (is_auto k') ms ms' ->
    lighter need (SObj k ms ign cb) (SObj k' ms' ign cb')
| li_union need st st' t tm ms ms' cb cb' : (st' = true -> st = true) -> (need = true -> st' = st) -> lmembers st' ms ms' ->
    lighter need (SUni st t tm ms cb) (SUni st' t tm ms' cb')
with lmembers : bool -> list (mspec * schema) -> list (mspec * schema) -> Prop :=
| lm_nil need : lmembers need [] []
| lm_cons need m c c' ms ms' : lighter need c c' -> lmembers need ms ms' -> lmembers need ((m, c) :: ms) ((m, c') :: ms').

(** ** Proof *)

Lemma lm_index need ms ms' nm : lmembers need ms ms' -> index_of nm ms' = index_of nm ms.
Proof.
  induction ms as [|[m c] ms IH] in ms' |- *; intros H; inversion H; subst; auto. cbn [index_of]. rewrite (IH ms'0); auto.
Qed.

Lemma lm_nth need ms ms' i : lmembers need ms ms' ->
  match nth_error ms i, nth_error ms' i with
  | Some (m, c), Some (m', c') => m' = m /\ lighter need c c'
  | None, None => True
  | _, _ => False
  end.
Proof.
  induction ms as [|[m c] ms IH] in ms', i |- *; intros H; inversion H; subst; destruct i; cbn [nth_error]; auto. apply IH. auto.
Qed.

Lemma lm_no_kids need ms ms' : lmembers need ms ms' -> map (fun _ : mspec * schema => false) ms' = map (fun _ => false) ms.
Proof. induction ms as [|[m c] ms IH] in ms' |- *; intros H; inversion H; subst; cbn [map]; f_equal; auto. Qed.

Lemma li_no_kids need s s' : lighter need s s' -> no_kids s' = no_kids s.
Proof. intros []; simpl; eauto using lm_no_kids. Qed.

Lemma li_stores s s' : lighter true s s' -> stores s' = stores s.
Proof.
  intros H. inversion H as [| |n st st' e e' cb cb' H1 H2|n st st' e e' ecb ecb' cb cb' H1 H2|n k k' ms ms' ign cb cb' H1 H2|n st st' t tm ms ms' cb cb' H1 H2]; subst; simpl; auto.
  destruct H1 as [->|[_ H1]]; [reflexivity|discriminate].
Qed.

Lemma li_satisfied st st' m c c' b : (st' = true -> st = true) -> lighter st' c c' ->
  satisfied st m c b = true -> satisfied st' m c' b = true.
Proof.
  intros Hst Hc. unfold satisfied. destruct st'.
  - rewrite Hst by reflexivity. rewrite (li_stores Hc). auto.
  - destruct st; auto. destruct b; auto. cbn [orb]. intros H. apply andb_true_iff in H as [-> _]. reflexivity.
Qed.

Lemma li_elem st st' e e' b : (st' = true -> st = true) -> lighter st' e e' ->
  negb st || (b && stores e) = true -> negb st' || (b && stores e') = true.
Proof.
  intros Hst He. destruct st'; auto. rewrite Hst by reflexivity. rewrite (li_stores He). auto.
Qed.

Lemma li_all k k' ms ms' kids : (k' = k \/ k' = OPlain) -> lmembers (is_auto k') ms ms' ->
  all_satisfied (match k with OAuto => true | _ => false end) ms kids = true ->
  all_satisfied (match k' with OAuto => true | _ => false end) ms' kids = true.
Proof.
  intros Hk. change (match k with OAuto => true | _ => false end) with (is_auto k). change (match k' with OAuto => true | _ => false end) with (is_auto k').
  assert (Hst : is_auto k' = true -> is_auto k = true) by (destruct Hk as [->| ->]; auto; discriminate).
  revert Hst. generalize (is_auto k) (is_auto k'). intros st st' Hst. revert ms' kids.
  induction ms as [|[m c] ms IH]; intros ms' kids H Ha; inversion H; subst; auto.
  destruct kids as [|b kids]; auto. cbn [all_satisfied] in *. apply andb_true_iff in Ha as [H1 H2].
  rewrite (li_satisfied m b Hst H5 H1), (IH _ _ H6 H2). reflexivity.
Qed.

Lemma li_end k k' ms ms' empty kids x : (k' = k \/ k' = OPlain) -> lmembers (is_auto k') ms ms' ->
  end_object_v k ms empty kids = Some x -> end_object_v k' ms' empty kids = Some x.
Proof.
  intros Hk Hm. unfold end_object_v. destruct empty; auto. destruct (all_satisfied _ ms kids) eqn:Ha; [|discriminate].
  rewrite (@li_all k k' ms ms' kids Hk Hm Ha). auto.
Qed.

Definition good_v (j : json) : Prop := forall need s s' b, lighter need s s' -> verdict j s = Some b -> verdict j s' = Some b.

Lemma li_select (rest : schema -> option bool) st st' t ms ms' x b : (st' = true -> st = true) -> lmembers st' ms ms' ->
  (forall need c c' b, lighter need c c' -> rest c = Some b -> rest c' = Some b) ->
  select_v rest st t ms x = Some b -> select_v rest st' t ms' x = Some b.
Proof.
  intros Hst Hm Hr. unfold select_v. destruct (vtype_eqb (ty_of x) t); auto. rewrite (lm_index x Hm).
  destruct (index_of x ms) as [i|]; auto. pose proof (lm_nth i Hm) as Hn.
  destruct (nth_error ms i) as [[m c]|], (nth_error ms' i) as [[m' c']|]; try contradiction; auto. destruct Hn as [-> Hc].
  destruct (rest c) as [q|] eqn:Hq; [|discriminate]. rewrite (Hr _ _ _ _ Hc Hq).
  destruct (satisfied st m c q) eqn:Hs; [|discriminate]. rewrite (li_satisfied m q Hst Hc Hs). auto.
Qed.

Lemma li_embedded need c c' v : lighter need c c' ->
  match embedded c v, embedded c' v with
  | Some (st, t, ms, _, x), Some (st', t', ms', _, x') => t' = t /\ x' = x /\ (st' = true -> st = true) /\ lmembers st' ms ms'
  | None, None => True
  | _, _ => False
  end.
Proof. intros []; destruct v; simpl; auto. destruct (String.eqb tm ""); auto. Qed.

Lemma li_value_v (rest : schema -> option bool) need c c' v x : good_v v -> lighter need c c' ->
  (forall need c c' b, lighter need c c' -> rest c = Some b -> rest c' = Some b) ->
  value_v verdict rest c v = Some x -> value_v verdict rest c' v = Some x.
Proof.
  intros Hv Hc Hr. unfold value_v. pose proof (li_embedded v Hc) as He.
  destruct (embedded c v) as [[[[[st t] ms] cb] y]|], (embedded c' v) as [[[[[st' t'] ms'] cb'] y']|]; try contradiction.
  - destruct He as (-> & -> & H1 & H2). destruct (select_v rest st t ms y) as [b|] eqn:Hs; [|discriminate].
    rewrite (@li_select rest st st' t ms ms' y b H1 H2 Hr Hs). auto.
  - destruct (verdict v c) as [b|] eqn:Hx; [|discriminate]. rewrite (Hv need c c' b Hc Hx). auto.
Qed.

Lemma li_body ps : Forall (fun kv => good_v (snd kv)) ps -> forall need s s' empty kids b, lighter need s s' ->
  body_v verdict ps s empty kids = Some b -> body_v verdict ps s' empty kids = Some b.
Proof.
  induction ps as [|[k v] ps IH]; intros Hd need s s' empty kids b H.
  - destruct H; simpl; auto. apply li_end; auto. destruct H as [H|[H _]]; auto.
  - inversion Hd as [|? ? Hv Hd']; subst. cbn [snd] in Hv. specialize (IH Hd').
    assert (Hr : forall need c c' b, lighter need c c' -> body_v verdict ps c true (no_kids c) = Some b -> body_v verdict ps c' true (no_kids c') = Some b).
    { intros n c c' x Hc. rewrite (li_no_kids Hc). eapply IH; eauto. }
    cbn [body_v]. assert (H0 := H). destruct H as [| |n st st' e e' cb cb' H1 H2 H3|n st st' e e' ecb ecb' cb cb' H1 H2 H3|n k0 k0' ms ms' ign cb cb' H1 H2|n st st' t tm ms ms' cb cb' H1 H2 H3]; auto.
    + destruct (value_v verdict _ e v) as [[took x]|] eqn:Hx; [|discriminate].
      rewrite (@li_value_v (fun c => body_v verdict ps c true (no_kids c)) st' e e' v (took, x) Hv H3 Hr Hx).
      destruct (negb st || (x && stores e)) eqn:Hn; [|discriminate]. rewrite (li_elem x H1 H3 Hn). destruct took; auto. eapply IH; eauto.
    + rewrite (lm_index (SStr k) H2). destruct (index_of (SStr k) ms) as [i|].
      * pose proof (lm_nth i H2) as Hn. destruct (nth_error ms i) as [[m c]|], (nth_error ms' i) as [[m' c']|]; try contradiction; auto. destruct Hn as [-> Hc].
        destruct (value_v verdict _ c v) as [[took x]|] eqn:Hx; [|discriminate].
        rewrite (@li_value_v (fun c => body_v verdict ps c true (no_kids c)) _ c c' v (took, x) Hv Hc Hr Hx).
        destruct took; [|eapply IH; eauto]. apply li_end; auto. destruct H1 as [H1|[H1 _]]; auto.
      * destruct ign; auto. eapply IH; eauto.
    + destruct (String.eqb tm ""); auto. destruct (String.eqb k tm); auto. destruct v; auto. apply li_select; auto.
Qed.

Lemma lighter_verdict j : good_v j.
Proof.
  induction j as [|x|js IH|ps IH] using json_ind'; intros need s s' b H; cbn [verdict].
  - auto.
  - destruct H; auto.
  - destruct H as [| |n st st' e e' cb cb' H1 H2 H3| | |]; auto. match goal with |- (if ?f then _ else _) = _ -> _ => destruct f eqn:Hf; [|discriminate] end.
    intros Hb. rewrite forallb_forall in Hf. match goal with |- (if ?f then _ else _) = _ => assert (Hg : f = true); [|rewrite Hg; auto] end.
    apply forallb_forall. intros j Hj. specialize (Hf j Hj). rewrite Forall_forall in IH. specialize (IH j Hj).
    destruct (is_null j); auto. cbn [orb] in *. destruct (verdict j e) as [q|] eqn:Hq; [|discriminate].
    rewrite (IH _ _ _ _ H3 Hq). eapply li_elem; eauto.
  - assert (Hk := li_no_kids H). assert (H0 := H). destruct H; auto; try (rewrite Hk; apply (li_body IH true _ H0)).
    destruct (String.eqb tm ""); auto. rewrite Hk; apply (li_body IH true _ H0).
Qed.

(** The documents excluded from the theorems are the same. *)
Lemma lighter_select (rest : schema -> bool) need t ms ms' x : lmembers need ms ms' -> (forall c c', lighter need c c' -> rest c' = rest c) ->
  sup_select rest t ms' x = sup_select rest t ms x.
Proof.
  intros Hm Hr. unfold sup_select. destruct (vtype_eqb (ty_of x) t); auto. rewrite (lm_index x Hm). destruct (index_of x ms) as [i|]; auto.
  pose proof (lm_nth i Hm) as Hn. destruct (nth_error ms i) as [[m c]|], (nth_error ms' i) as [[m' c']|]; try contradiction; auto. apply Hr, Hn.
Qed.

Lemma lighter_supported j : forall need s s', lighter need s s' -> supported j s' = supported j s.
Proof.
  induction j as [|x|js IH|ps IH] using json_ind'; intros need s s' H; cbn [supported].
  - auto.
  - destruct H; auto.
  - destruct H as [| |n st st' e e' cb cb' H1 H2 H3| | |]; auto. f_equal; [destruct H3; auto|].
    assert (Hv : is_value e' = is_value e) by (destruct H3; auto). rewrite Forall_forall in IH. clear - IH H3 Hv.
    induction js as [|j js IHj]; auto. cbn [forallb]. rewrite IHj by (intros; eapply IH; eauto; right; auto).
    rewrite Hv, (IH j (or_introl eq_refl) _ _ _ H3). reflexivity.
  - assert (Hb : forall need s s', lighter need s s' -> sup_body supported ps s' = sup_body supported ps s).
    { clear need s s' H. induction ps as [|[k v] ps IHp]; intros need s s' H; auto. inversion IH as [|? ? Hv Hd]; subst. cbn [snd] in Hv. specialize (IHp Hd).
      assert (Hval : forall need need' c c' t t', lighter need c c' -> lighter need' t t' ->
        sup_value supported (sup_body supported ps) t' c' v = sup_value supported (sup_body supported ps) t c v).
      { intros n1 n2 c c' t t' Hc Ht. unfold sup_value. pose proof (li_embedded v Hc) as He.
        destruct (embedded c v) as [[[[[st1 t1] ms1] cb1] y1]|], (embedded c' v) as [[[[[st2 t2] ms2] cb2] y2]|]; try contradiction.
        - destruct He as (-> & -> & H1 & H2). eapply lighter_select; eauto.
        - rewrite (Hv _ _ _ Hc), (IHp _ _ _ Ht). reflexivity. }
      assert (H0 := H). cbn [sup_body]. destruct H as [| |n st st' e e' cb cb' H1 H2 H3|n st st' e e' ecb ecb' cb cb' H1 H2 H3|n k0 k0' ms ms' ign cb cb' H1 H2|n st st' t tm ms ms' cb cb' H1 H2 H3]; auto.
      - eapply Hval; eauto.
      - rewrite (lm_index (SStr k) H2). destruct (index_of (SStr k) ms) as [i|].
        + pose proof (lm_nth i H2) as Hn. destruct (nth_error ms i) as [[m c]|], (nth_error ms' i) as [[m' c']|]; try contradiction; auto.
          eapply Hval; [apply Hn|eauto].
        + destruct ign; auto. rewrite (IHp _ _ _ H0). reflexivity.
      - destruct (String.eqb tm ""); auto. destruct (String.eqb k tm); auto. destruct v; auto. eapply lighter_select; eauto. }
    assert (H0 := H). destruct H; auto; try apply (Hb _ _ _ H0). destruct (String.eqb tm ""); auto. apply (Hb _ _ _ H0).
Qed.
