(** Declarations whose callbacks only look (nothing here is about the code): the result
    is that of the declaration without callbacks. *)

From Verif Require Import Spec Model Infra Total Safe Refine Main DenFacts Closed Accept Order Members Free Round.
Local Open Scope string_scope.
Set Implicit Arguments.

(** The declaration without its callbacks. *)
Fixpoint bare (s : schema) : schema :=
  match s with
  | SVal t _ => SVal t None
  | SArr st e _ => SArr st (bare e) None
  | SMp st e _ _ => SMp st (bare e) None None
  | SObj k ms ign _ => SObj k (map (fun mp => (fst mp, bare (snd mp))) ms) ign None
  | SUni st t tm ms _ => SUni st t tm (map (fun mp => (fst mp, bare (snd mp))) ms) None
  | SIgn => SIgn
  end.

(** All callbacks of the declaration only look: they return true, call no pop(), assign
    no value. *)
Definition looks (P : prog) (s : schema) : Prop :=
  forall c, In c (callbacks s) -> forall l o, p_cb P c l o = mkA [] None CTrue.

Notation bm := (map (fun mp : mspec * schema => (fst mp, bare (snd mp)))).

Lemma bm_nth (ms : list (mspec * schema)) n :
  nth_error (bm ms) n = option_map (fun mp => (fst mp, bare (snd mp))) (nth_error ms n).
Proof. apply nth_error_map. Qed.

Lemma index_bare nm (ms : list (mspec * schema)) : index_of nm (bm ms) = index_of nm ms.
Proof. induction ms as [|[m c] ms IH]; simpl; auto. rewrite IH. reflexivity. Qed.

Lemma fresh_bare s : fresh (bare s) = fresh s.
Proof.
  revert s. fix IH 1. intros s.
  assert (K : forall ms : list (mspec * schema), map (fun mp => fresh (snd mp)) (bm ms) = map (fun mp => fresh (snd mp)) ms).
  { fix IHm 1. intros [|[m c] ms]; simpl; [reflexivity|]. rewrite (IH c), (IHm ms). reflexivity. }
  destruct s; simpl; auto; rewrite K; reflexivity.
Qed.

Lemma is_ign_bare s : is_ign (bare s) = is_ign s.
Proof. destruct s; reflexivity. Qed.
Lemma is_value_bare s : is_value (bare s) = is_value s.
Proof. destruct s; reflexivity. Qed.

Lemma embedded_bare c v :
  embedded (bare c) v =
  option_map (fun x => match x with (st, t, ms, cb, y) => (st, t, bm ms, None, y) end) (embedded c v).
Proof. destruct c, v; simpl; auto. destruct (String.eqb tm ""); reflexivity. Qed.

Lemma supported_bare j : forall s, supported j (bare s) = supported j s.
Proof.
  induction j as [|x|js IH|ps IH] using json_ind'; intros s; auto.
  - destruct s; reflexivity.
  - destruct s; simpl; auto. rewrite is_ign_bare. f_equal.
    induction IH as [|j js Hj _ IHl]; simpl; auto. rewrite IHl, is_value_bare, Hj. reflexivity.
  - assert (B : forall s, sup_body supported ps (bare s) = sup_body supported ps s).
    { clear s. induction IH as [|[k v] ps Hv _ IHp]; intros s; auto. simpl in Hv.
      assert (Hsel : forall t ms x, sup_select (fun c => sup_body supported ps c) t (bm ms) x =
                                    sup_select (fun c => sup_body supported ps c) t ms x).
      { intros t ms x. unfold sup_select. destruct (vtype_eqb (ty_of x) t); auto. rewrite index_bare.
        destruct (index_of x ms) as [i|]; auto. rewrite bm_nth. destruct (nth_error ms i) as [[m c]|]; simpl; auto. }
      assert (Hval : forall s c, sup_value supported (fun c => sup_body supported ps c) (bare s) (bare c) v =
                                 sup_value supported (fun c => sup_body supported ps c) s c v).
      { intros s' c. unfold sup_value. rewrite embedded_bare.
        destruct (embedded c v) as [[[[[st t] ms] cb] x]|]; simpl; auto. rewrite Hv, IHp. reflexivity. }
      destruct s; auto.
      - exact (Hval (SMp store s ecb cb) s).
      - cbn [bare sup_body]. rewrite index_bare. destruct (index_of (SStr k) ms) as [i|].
        + rewrite bm_nth. destruct (nth_error ms i) as [[m c]|]; simpl; auto. exact (Hval (SObj k0 ms ign cb) c).
        + destruct ign; auto. f_equal. exact (IHp (SObj k0 ms true cb)).
      - cbn [bare sup_body]. destruct (String.eqb tm ""); auto. destruct (String.eqb k tm); auto.
        destruct v; auto. }
    destruct s; auto; [exact (B (SMp store s ecb cb))|exact (B (SObj k ms ign cb))|].
    cbn [bare supported]. destruct (String.eqb tm ""); auto. exact (B (SUni store t tm ms cb)).
Qed.

Section Looks.
Variable P : prog.
Notation body := (Spec.body P (den P)).

(** The same result, with and without callbacks. *)
Definition same {A} (l : list event) (o o' : list event * (exn + A)) (l' : list event) : Prop :=
  exists evs r, o = ((l ++ evs)%list, r) /\ o' = (l', r).

Lemma same_same A l l' (r : exn + A) : same l (l, r) (l', r) l'.
Proof. exists [], r. rewrite app_nil_r. auto. Qed.

Lemma same_andthen A B l l' (o o' : list event * (exn + A))
      (k k' : A -> list event -> list event * (exn + B)) :
  same l o o' l' -> (forall a l, same l (k a l) (k' a l') l') ->
  same l (andthen o k) (andthen o' k') l'.
Proof.
  intros (evs & r & -> & ->) H. destruct r as [e|a]; simpl; [exists evs, (inl e); auto|].
  destruct (H a (l ++ evs)%list) as (evs' & r & -> & ->).
  exists (evs ++ evs')%list, r. rewrite app_assoc. auto.
Qed.

Definition idle (cb : option cbid) : Prop :=
  forall c, In c (cb_list cb) -> forall l o, p_cb P c l o = mkA [] None CTrue.

Lemma same_invoke cb o msg l l' k : idle cb ->
  (forall l, same l (k nothing l) (k nothing l') l') ->
  same l (invoke P cb o msg l k) (invoke P None o msg l' k) l'.
Proof.
  intros Hc Hk. destruct cb as [c|]; [|apply Hk]. cbn [invoke].
  rewrite (Hc c (or_introl eq_refl)). cbn [a_res]. fold nothing.
  destruct (Hk (l ++ [Ev c o])%list) as (evs & r & -> & ->).
  exists (Ev c o :: evs), r. rewrite <- app_assoc. auto.
Qed.

Lemma same_end_array st cb empty vals l l' : idle cb ->
  same l (end_array P st cb empty vals l) (end_array P st None empty vals l') l'.
Proof. intros H. unfold end_array. destruct st; apply same_invoke; auto using same_same. Qed.

Lemma same_end_map st cb empty vals l l' : idle cb ->
  same l (end_map P st cb empty vals l) (end_map P st None empty vals l') l'.
Proof. intros H. unfold end_map. apply same_invoke; auto using same_same. Qed.

Lemma missing_bare ms : forall kids, missing (bm ms) kids = missing ms kids.
Proof. induction ms as [|[m c] ms IH]; intros [|w kids]; simpl; auto. rewrite IH. reflexivity. Qed.

Lemma values_bare ms : forall kids, member_values P (bm ms) kids = member_values P ms kids.
Proof. induction ms as [|[m c] ms IH]; intros [|w kids]; simpl; auto. rewrite IH. reflexivity. Qed.

Lemma same_end_object k ms cb empty kids l l' : idle cb ->
  same l (end_object P k ms cb empty kids l) (end_object P k (bm ms) None empty kids l') l'.
Proof.
  intros H. unfold end_object, err. destruct empty; auto using same_same. rewrite missing_bare, values_bare.
  destruct k; [destruct (missing ms kids)|destruct (member_values P ms kids)|destruct (missing ms kids)];
    auto using same_same; apply same_invoke; auto using same_same.
Qed.

Lemma same_end_union st cb i m w kids l l' : idle cb ->
  same l (end_union P st cb i m w kids l) (end_union P st None i m w kids l') l'.
Proof.
  intros H. unfold end_union, err. destruct st.
  - destruct (member_value P m w _); auto using same_same. apply same_invoke; auto using same_same.
  - destruct (v_set w || m_opt m); auto using same_same. apply same_invoke; auto using same_same.
Qed.

Lemma same_map_elem st ecb k w vals l l' : idle ecb ->
  same l (end_map_elem P st ecb k w vals l) (end_map_elem P st None k w vals l') l'.
Proof.
  intros H. unfold end_map_elem. apply same_andthen; [apply same_invoke; auto using same_same|].
  intros w' m. destruct st; auto using same_same. destruct (v_val w') as [v'|]; auto using same_same.
  destruct (storing P v'); cbn [andthen]; auto using same_same.
Qed.

Lemma same_select rest st t ms cb x l l' : idle cb ->
  (forall c, In c (map snd ms) -> same l (rest c l) (rest (bare c) l') l') ->
  same l (select P rest st t ms cb x l) (select P rest st t (bm ms) None x l') l'.
Proof.
  intros Hc H. unfold select, bad, err. destruct (vtype_eqb (ty_of x) t); auto using same_same.
  rewrite index_bare. destruct (index_of x ms) as [i|]; auto using same_same. rewrite bm_nth.
  destruct (nth_error ms i) as [[m c]|] eqn:Hn; cbn [option_map fst snd]; auto using same_same.
  replace (map (fun mp => fresh (snd mp)) (bm ms)) with (map (fun mp => fresh (snd mp)) ms).
  2:{ rewrite map_map. apply map_ext. intros mp. symmetry. apply fresh_bare. }
  apply same_andthen; auto using same_end_union.
  apply H. apply in_map_iff. exists (m, c). split; auto. eapply nth_error_In; eauto.
Qed.

Lemma looks_ms cb (ms : list (mspec * schema)) :
  (forall c, In c (cb_list cb ++ flat_map (fun mp => callbacks (snd mp)) ms)%list -> forall l o, p_cb P c l o = mkA [] None CTrue) ->
  idle cb /\ (forall mp, In mp ms -> looks P (snd mp)).
Proof.
  intros H. split; intros x Hx; [apply H; apply in_or_app; auto|].
  intros c Hc. apply H. apply in_or_app. right. apply in_flat_map. eauto.
Qed.

Lemma looks_map st e ecb cb : looks P (SMp st e ecb cb) -> idle ecb /\ idle cb /\ looks P e.
Proof.
  intros H. split; [|split]; intros x Hx; apply H; simpl; apply in_or_app; auto; right; apply in_or_app; auto.
Qed.

Lemma looks_arr st e cb : looks P (SArr st e cb) -> idle cb /\ looks P e.
Proof. intros H. split; intros x Hx; apply H; simpl; apply in_or_app; auto. Qed.

Definition same_j (j : json) : Prop := forall s l l', looks P s ->
  same l (den P j s l) (den P j (bare s) l') l'.

Lemma kids_bare s : fresh_kids (bare s) = fresh_kids s.
Proof. unfold fresh_kids. rewrite fresh_bare. reflexivity. Qed.

Lemma same_body ps : Forall (fun kv => same_j (snd kv)) ps -> forall s empty kids vals l l',
  looks P s -> same l (body ps s empty kids vals l) (body ps (bare s) empty kids vals l') l'.
Proof.
  induction 1 as [|[k v] ps Hv Hps IH]; intros s empty kids vals l l' Hs.
  - destruct s; simpl in *; unfold bad; auto using same_same.
    + apply looks_map in Hs. apply same_end_map. tauto.
    + apply looks_ms in Hs. apply same_end_object. tauto.
  - simpl in Hv. set (rest := fun c l => body ps c true (fresh_kids c) [] l).
    assert (Hrest : forall c l l', looks P c -> same l (rest c l) (rest (bare c) l') l').
    { intros c m m' Hc. unfold rest. rewrite kids_bare. apply IH; auto. }
    assert (Hval : forall c l l', looks P c ->
      same l (value_of P (den P) rest c v l) (value_of P (den P) rest (bare c) v l') l').
    { intros c m m' Hc. unfold value_of. rewrite embedded_bare.
      destruct (embedded c v) as [[[[[st t] ms] cb] x]|] eqn:He; cbn [option_map].
      - destruct c; simpl in He; try discriminate. destruct v; try discriminate.
        destruct (String.eqb tm ""); inversion He; subst. apply looks_ms in Hc.
        destruct Hc as [Hc1 Hc2]. apply same_andthen; auto using same_same. apply same_select; auto.
        intros c Hin. apply in_map_iff in Hin. destruct Hin as (mp & <- & Hin). apply Hrest; auto.
      - apply same_andthen; auto using same_same. }
    rewrite !body_cons. cbn zeta. fold rest. destruct s; cbn [bare]; unfold bad, err; auto using same_same.
    + pose proof (looks_map Hs) as (Hecb & Hcb & He).
      apply same_andthen; auto. intros [f w] m. apply same_andthen; [apply same_map_elem; auto|].
      intros vals' n. destruct f; cbn [fst snd]; [apply same_end_map; auto|].
      apply (IH (SMp store s ecb cb)); auto.
    + pose proof (looks_ms _ _ Hs) as (Hcb & Hms). rewrite index_bare.
      destruct (index_of (SStr k) ms) as [i|].
      * rewrite bm_nth. destruct (nth_error ms i) as [[m c]|] eqn:Hn; cbn [option_map fst snd]; auto using same_same.
        apply same_andthen; [apply Hval; apply (Hms (m, c)); eapply nth_error_In; eauto|].
        intros [f w] m1. cbn [fst snd]. destruct f; [apply same_end_object; auto|apply (IH (SObj k0 ms ign cb)); auto].
      * destruct ign; [apply (IH (SObj k0 ms true cb)); auto|auto using same_same].
    + pose proof (looks_ms _ _ Hs) as (Hcb & Hms).
      destruct (String.eqb tm ""); auto using same_same.
      destruct (String.eqb k tm); auto using same_same.
      destruct v; auto using same_same. apply same_select; auto.
      intros c Hin. apply in_map_iff in Hin. destruct Hin as (mp & <- & Hin). apply Hrest; auto.
Qed.

Lemma same_elems st e cb js : Forall same_j js -> looks P e -> idle cb -> forall empty vals l l',
  same l (elems P (den P) st e cb js empty vals l) (elems P (den P) st (bare e) None js empty vals l') l'.
Proof.
  intros Hjs He Hcb. induction Hjs as [|j js Hj _ IH]; intros empty vals l l'.
  - simpl. apply same_end_array; auto.
  - destruct (is_null j) eqn:Hn; [destruct j; try discriminate; apply IH|].
    rewrite !elems_cons by auto. apply same_andthen; auto.
    intros w m. destruct st; auto. destruct (v_val w) as [v|]; unfold err; auto using same_same.
    destruct (storing P v); cbn [andthen]; auto using same_same.
Qed.

Theorem same_den j : same_j j.
Proof.
  induction j as [|x|js IH|ps IH] using json_ind'; intros s l l' Hs.
  - simpl. rewrite fresh_bare. auto using same_same.
  - destruct s; cbn [bare den]; unfold bad; auto using same_same.
    destruct (vtype_eqb (ty_of x) t); auto using same_same.
    unfold end_value. apply same_invoke; auto using same_same.
  - destruct s; simpl; unfold bad; auto using same_same.
    apply looks_arr in Hs. apply same_elems; tauto.
  - pose proof (same_body IH) as B. destruct s.
    1,2,6: cbn [den bare]; unfold bad; auto using same_same.
    + exact (B _ true [] [] l l' Hs).
    + match type of Hs with looks _ ?s => pose proof (B s true (fresh_kids s) [] l l' Hs) as B' end.
      rewrite <- kids_bare in B' at 2. exact B'.
    + match type of Hs with looks _ ?s => pose proof (B s true (fresh_kids s) [] l l' Hs) as B' end.
      rewrite <- kids_bare in B' at 2. cbn [den bare] in *. destruct (String.eqb tm ""); unfold err; auto using same_same.
Qed.

Lemma looks_heedless s : looks P s -> heedless P s.
Proof. intros H c Hc l l' o. rewrite !H; auto. Qed.

(** What a declaration with onlookers makes of a document. *)
Theorem den_looks j s l : looks P s -> den P j s l = ((l ++ events P s j)%list, meaning P (bare s) j).
Proof.
  intros H. rewrite (den_free j l (looks_heedless H)). f_equal.
  destruct (@same_den j s [] [] H) as (evs & r & H1 & H2). unfold meaning. rewrite H1, H2. reflexivity.
Qed.
End Looks.

(** ** Values *)
Lemma has_bare v : forall s, has s v -> has (bare s) v.
Proof.
  induction v as [x|vs IH|vs IH|i v IH|m IH|o] using value_ind'; intros s; destruct s; simpl; auto.
  - induction IH as [|v vs Hv _ IHv]; auto. intros [H1 H2]. split; [auto|exact (IHv H2)].
  - revert ms. induction IH as [|v vs Hv _ IHv]; intros [|[m c] ms]; simpl; auto. intros [H1 H2]. split; [auto|exact (IHv ms H2)].
  - rewrite bm_nth. destruct (nth_error ms i) as [[m c]|]; simpl; auto.
  - intros [H1 H2]. split; auto. clear H1. induction IH as [|[k v] vs Hv _ IHv]; auto. destruct H2 as [H2 H3]. split; [apply Hv; auto|exact (IHv H3)].
Qed.

Lemma json_bare v : forall s, to_json (bare s) v = to_json s v.
Proof.
  induction v as [x|vs IH|vs IH|i v IH|m IH|o] using value_ind'; intros s; destruct s; simpl; auto.
  - f_equal. induction IH as [|v vs Hv _ IHv]; simpl; auto. rewrite Hv, IHv. auto.
  - f_equal. revert ms. induction IH as [|v vs Hv _ IHv]; intros [|[m c] ms]; simpl; auto. rewrite Hv, IHv. auto.
  - rewrite bm_nth. destruct (nth_error ms i) as [[m c]|]; simpl; auto. rewrite IH. reflexivity.
  - f_equal. induction IH as [|[k v] vs Hv _ IHv]; simpl in *; auto. rewrite Hv, IHv. auto.
Qed.
