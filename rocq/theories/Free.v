(** Closed forms of [den] for arrays, maps and objects whose elements and members may
    have callbacks, as long as those callbacks decide by their argument alone
    (nothing here is about the code). *)

From Verif Require Import Spec Model Infra Total Safe Refine Main DenFacts Closed Accept Order Members.
From Coq Require Import Permutation.
Local Open Scope string_scope.
Set Implicit Arguments.

(** The callbacks of a declaration. *)
Definition cb_list (c : option cbid) : list cbid := match c with Some c => [c] | None => [] end.

Fixpoint callbacks (s : schema) : list cbid :=
  match s with
  | SVal _ cb => cb_list cb
  | SArr _ e cb => cb_list cb ++ callbacks e
  | SMp _ e ecb cb => cb_list ecb ++ cb_list cb ++ callbacks e
  | SObj _ ms _ cb | SUni _ _ _ ms cb => cb_list cb ++ flat_map (fun mp => callbacks (snd mp)) ms
  | SIgn => []
  end%list.

Section Free.
Variable P : prog.
Notation body := (Spec.body P (den P)).
Notation meaning := (meaning P).

(** A callback whose decision depends on its argument only, not on what was called
    before. *)
Definition unaware (c : cbid) : Prop := forall l l' o, p_cb P c l o = p_cb P c l' o.

(** A declaration all of whose callbacks are such (in particular: without callbacks). *)
Definition heedless (s : schema) : Prop := forall c, In c (callbacks s) -> unaware c.

(** The callback invocations of a value for a declaration, given nothing else. *)
Definition events (s : schema) (j : json) : list event := fst (den P j s []).

Definition free {A} (l1 l2 : list event) (o1 o2 : list event * (exn + A)) : Prop :=
  exists evs r, o1 = ((l1 ++ evs)%list, r) /\ o2 = ((l2 ++ evs)%list, r).

Lemma free_same A l1 l2 (r : exn + A) : free l1 l2 (l1, r) (l2, r).
Proof. exists [], r. rewrite !app_nil_r. auto. Qed.

Lemma free_andthen A B l1 l2 (o1 o2 : list event * (exn + A))
      (k : A -> list event -> list event * (exn + B)) :
  free l1 l2 o1 o2 -> (forall a l1 l2, free l1 l2 (k a l1) (k a l2)) ->
  free l1 l2 (andthen o1 k) (andthen o2 k).
Proof.
  intros (evs & r & -> & ->) H. destruct r as [e|a]; simpl; [exists evs, (inl e); auto|].
  destruct (H a (l1 ++ evs)%list (l2 ++ evs)%list) as (evs' & r & -> & ->).
  exists (evs ++ evs')%list, r. rewrite !app_assoc. auto.
Qed.

Lemma free_invoke cb o msg l1 l2 k : (forall c, In c (cb_list cb) -> unaware c) ->
  (forall a l1 l2, free l1 l2 (k a l1) (k a l2)) ->
  free l1 l2 (invoke P cb o msg l1 k) (invoke P cb o msg l2 k).
Proof.
  intros Hc Hk. destruct cb as [c|]; [|apply Hk]. cbn [invoke].
  rewrite (Hc c (or_introl eq_refl) l1 l2 o).
  destruct (a_res (p_cb P c l2 o)) as [| |m|]; unfold err.
  - destruct (Hk (p_cb P c l2 o) (l1 ++ [Ev c o])%list (l2 ++ [Ev c o])%list) as (evs & r & H1 & H2).
    exists (Ev c o :: evs), r. rewrite H1, H2, <- !app_assoc. auto.
  - exists [Ev c o], (inl (XStd msg)). auto.
  - exists [Ev c o], (inl (XStd m)). auto.
  - exists [Ev c o], (inl XOther). auto.
Qed.

Lemma free_end_array st cb empty vals l1 l2 : (forall c, In c (cb_list cb) -> unaware c) ->
  free l1 l2 (end_array P st cb empty vals l1) (end_array P st cb empty vals l2).
Proof.
  intros H. unfold end_array. destruct st; apply free_invoke; auto using free_same.
Qed.

Lemma free_end_map st cb empty vals l1 l2 : (forall c, In c (cb_list cb) -> unaware c) ->
  free l1 l2 (end_map P st cb empty vals l1) (end_map P st cb empty vals l2).
Proof. intros H. unfold end_map. apply free_invoke; auto using free_same. Qed.

Lemma free_end_object k ms cb empty kids l1 l2 : (forall c, In c (cb_list cb) -> unaware c) ->
  free l1 l2 (end_object P k ms cb empty kids l1) (end_object P k ms cb empty kids l2).
Proof.
  intros H. unfold end_object, err. destruct empty; auto using free_same.
  destruct k; [destruct (missing ms kids)|destruct (member_values P ms kids)|destruct (missing ms kids)];
    auto using free_same; apply free_invoke; auto using free_same.
Qed.

Lemma free_end_union st cb i m w kids l1 l2 : (forall c, In c (cb_list cb) -> unaware c) ->
  free l1 l2 (end_union P st cb i m w kids l1) (end_union P st cb i m w kids l2).
Proof.
  intros H. unfold end_union, err. destruct st.
  - destruct (member_value P m w _); auto using free_same. apply free_invoke; auto using free_same.
  - destruct (v_set w || m_opt m); auto using free_same. apply free_invoke; auto using free_same.
Qed.

Lemma free_map_elem st ecb k w vals l1 l2 : (forall c, In c (cb_list ecb) -> unaware c) ->
  free l1 l2 (end_map_elem P st ecb k w vals l1) (end_map_elem P st ecb k w vals l2).
Proof.
  intros H. unfold end_map_elem. apply free_andthen; [apply free_invoke; auto using free_same|].
  intros w' l l'. destruct st; auto using free_same. destruct (v_val w') as [v'|]; auto using free_same.
  destruct (storing P v'); cbn [andthen]; auto using free_same.
Qed.

Lemma free_select rest st t ms cb x l1 l2 : (forall c, In c (cb_list cb) -> unaware c) ->
  (forall c, In c (map snd ms) -> free l1 l2 (rest c l1) (rest c l2)) ->
  free l1 l2 (select P rest st t ms cb x l1) (select P rest st t ms cb x l2).
Proof.
  intros Hc H. unfold select, bad, err. destruct (vtype_eqb (ty_of x) t); auto using free_same.
  destruct (index_of x ms) as [i|]; auto using free_same.
  destruct (nth_error ms i) as [[m c]|] eqn:Hn; auto using free_same.
  apply free_andthen; auto using free_end_union.
  apply H. apply in_map_iff. exists (m, c). split; auto. eapply nth_error_In; eauto.
Qed.

Lemma heedless_cb_obj k ms ign cb : heedless (SObj k ms ign cb) ->
  (forall c, In c (cb_list cb) -> unaware c) /\ (forall mp, In mp ms -> heedless (snd mp)).
Proof.
  intros H. split; intros x Hx; [apply H; simpl; apply in_or_app; auto|].
  intros c Hc. apply H. simpl. apply in_or_app. right. apply in_flat_map. eauto.
Qed.

Lemma heedless_cb_uni st t tm ms cb : heedless (SUni st t tm ms cb) ->
  (forall c, In c (cb_list cb) -> unaware c) /\ (forall mp, In mp ms -> heedless (snd mp)).
Proof.
  intros H. split; intros x Hx; [apply H; simpl; apply in_or_app; auto|].
  intros c Hc. apply H. simpl. apply in_or_app. right. apply in_flat_map. eauto.
Qed.

Lemma heedless_cb_arr st e cb : heedless (SArr st e cb) ->
  (forall c, In c (cb_list cb) -> unaware c) /\ heedless e.
Proof. intros H. split; intros x Hx; apply H; simpl; apply in_or_app; auto. Qed.

Lemma heedless_cb_map st e ecb cb : heedless (SMp st e ecb cb) ->
  (forall c, In c (cb_list ecb) -> unaware c) /\ (forall c, In c (cb_list cb) -> unaware c) /\ heedless e.
Proof.
  intros H. split; [|split]; intros x Hx; apply H; simpl; apply in_or_app; auto; right; apply in_or_app; auto.
Qed.

Definition free_j (j : json) : Prop := forall s l1 l2, heedless s ->
  free l1 l2 (den P j s l1) (den P j s l2).

Lemma free_body ps : Forall (fun kv => free_j (snd kv)) ps -> forall s empty kids vals l1 l2,
  heedless s -> free l1 l2 (body ps s empty kids vals l1) (body ps s empty kids vals l2).
Proof.
  induction 1 as [|[k v] ps Hv Hps IH]; intros s empty kids vals l1 l2 Hs.
  - destruct s; simpl in *; unfold bad; auto using free_same.
    + apply heedless_cb_map in Hs. apply free_end_map. tauto.
    + apply heedless_cb_obj in Hs. apply free_end_object. tauto.
  - simpl in Hv.
    assert (Hval : forall c l1 l2, heedless c ->
      free l1 l2 (value_of P (den P) (fun c l => body ps c true (fresh_kids c) [] l) c v l1)
                 (value_of P (den P) (fun c l => body ps c true (fresh_kids c) [] l) c v l2)).
    { intros c m1 m2 Hc. unfold value_of. destruct (embedded c v) as [[[[[st t] ms] cb] x]|] eqn:He.
      - destruct c; simpl in He; try discriminate. destruct v; try discriminate.
        destruct (String.eqb tm ""); inversion He; subst. apply heedless_cb_uni in Hc.
        destruct Hc as [Hc1 Hc2]. apply free_andthen; auto using free_same. apply free_select; auto.
        intros c Hin. apply in_map_iff in Hin. destruct Hin as (mp & <- & Hin). apply IH; auto.
      - apply free_andthen; auto using free_same. }
    rewrite !body_cons. cbn zeta. destruct s; unfold bad, err; auto using free_same.
    + pose proof (heedless_cb_map Hs) as (Hecb & Hcb & He).
      apply free_andthen; auto. intros [f w] m1 m2. apply free_andthen; [apply free_map_elem; auto|].
      intros vals' n1 n2. destruct f; simpl; [apply free_end_map; auto|apply IH; auto].
    + pose proof (heedless_cb_obj Hs) as (Hcb & Hms).
      destruct (index_of (SStr k) ms) as [i|].
      * destruct (nth_error ms i) as [[m c]|] eqn:Hn; auto using free_same.
        apply free_andthen; [apply Hval; apply (Hms (m, c)); eapply nth_error_In; eauto|].
        intros [f w] m1 m2. cbn [fst snd]. destruct f; [apply free_end_object; auto|apply IH; auto].
      * destruct ign; [apply IH; auto|auto using free_same].
    + pose proof (heedless_cb_uni Hs) as (Hcb & Hms).
      destruct (String.eqb tm ""); auto using free_same.
      destruct (String.eqb k tm); auto using free_same.
      destruct v; auto using free_same. apply free_select; auto.
      intros c Hin. apply in_map_iff in Hin. destruct Hin as (mp & <- & Hin). apply IH; auto.
Qed.

Lemma free_elems st e cb js : Forall free_j js -> heedless e ->
  (forall c, In c (cb_list cb) -> unaware c) -> forall empty vals l1 l2,
  free l1 l2 (elems P (den P) st e cb js empty vals l1) (elems P (den P) st e cb js empty vals l2).
Proof.
  intros Hjs He Hcb. induction Hjs as [|j js Hj _ IH]; intros empty vals l1 l2.
  - simpl. apply free_end_array; auto.
  - destruct (is_null j) eqn:Hn; [destruct j; try discriminate; apply IH|].
    rewrite !elems_cons by auto. apply free_andthen; auto.
    intros w m1 m2. destruct st; auto. destruct (v_val w) as [v|]; unfold err; auto using free_same.
    destruct (storing P v); cbn [andthen]; auto using free_same.
Qed.

Lemma free_den j : free_j j.
Proof.
  induction j as [|x|js IH|ps IH] using json_ind'; intros s l1 l2 Hs.
  - simpl. auto using free_same.
  - simpl. unfold bad. destruct s; auto using free_same.
    destruct (vtype_eqb (ty_of x) t); auto using free_same.
    unfold end_value. apply free_invoke; auto using free_same.
  - destruct s; simpl; unfold bad; auto using free_same.
    apply heedless_cb_arr in Hs. apply free_elems; tauto.
  - destruct s; simpl; unfold bad, err; auto using free_same; try (apply free_body; auto).
    destruct (String.eqb tm ""); auto using free_same. apply free_body; auto.
Qed.

(** What a heedless declaration makes of a document does not depend on the past. *)
Lemma den_free j s l : heedless s -> den P j s l = ((l ++ events s j)%list, meaning s j).
Proof.
  intros Hs. destruct (@free_den j s l [] Hs) as (evs & r & H1 & H2).
  unfold events, DenFacts.meaning. rewrite H1, H2. auto.
Qed.

Lemma nocb_callbacks s : nocb s = true -> callbacks s = [].
Proof.
  revert s. fix IH 1. intros s.
  assert (Hms : forall ms : list (mspec * schema), forallb (fun mp => nocb (snd mp)) ms = true ->
                flat_map (fun mp => callbacks (snd mp)) ms = []).
  { fix IHm 1. intros [|[m c] ms]; simpl; [auto|]. intros H. apply andb_true_iff in H.
    destruct H as [H1 H2]. rewrite (IH c H1), (IHm ms H2). auto. }
  destruct s; simpl; intros H; auto.
  - rewrite (no_cb_none _ H). auto.
  - apply andb_true_iff in H. destruct H as [H1 H2]. rewrite (no_cb_none _ H1), (IH s H2). auto.
  - apply andb_true_iff in H. destruct H as [H H2]. apply andb_true_iff in H. destruct H as [H1 H3].
    rewrite (no_cb_none _ H1), (no_cb_none _ H3), (IH s H2). auto.
  - apply andb_true_iff in H. destruct H as [H1 H2]. rewrite (no_cb_none _ H1), (Hms _ H2). auto.
  - apply andb_true_iff in H. destruct H as [H1 H2]. rewrite (no_cb_none _ H1), (Hms _ H2). auto.
Qed.

Lemma nocb_heedless s : nocb s = true -> heedless s.
Proof. intros H c Hc. rewrite nocb_callbacks in Hc; auto. destruct Hc. Qed.

Lemma nocb_events s j : nocb s = true -> events s j = [].
Proof. intros H. unfold events. rewrite den_meaning; auto. Qed.

(** ** Arrays *)
Lemma elems_free e cb js : heedless e -> forall vs empty vals l,
  Forall2 (yields P e) (non_null js) vs ->
  elems P (den P) true e cb js empty vals l =
  end_array P true cb (empty && match non_null js with [] => true | _ => false end) (vals ++ vs)%list
            (l ++ flat_map (events e) (non_null js))%list.
Proof.
  intros He. induction js as [|j js IH]; intros vs empty vals l H.
  - simpl in *. inversion H; subst. rewrite !app_nil_r, andb_true_r. reflexivity.
  - destruct (is_null j) eqn:Hn.
    + destruct j; try discriminate. cbn [elems]. apply IH. exact H.
    + rewrite elems_cons by auto. unfold non_null in *. cbn [filter] in *. rewrite Hn in *. cbn [negb] in *.
      inversion H as [|? v ? vs' ((w & Hw & Hv) & Hst) Hr]; subst.
      rewrite (den_free j l He), Hw. cbn [andthen]. rewrite Hv. unfold storing. rewrite Hst. cbn [andthen].
      rewrite (IH vs' false (vals ++ [v])%list (l ++ events e j)%list Hr). rewrite andb_false_r, <- !app_assoc. reflexivity.
Qed.

Lemma elems_free_inv e cb js : heedless e -> forall empty vals l l' w,
  elems P (den P) true e cb js empty vals l = (l', inr w) ->
  exists vs, Forall2 (yields P e) (non_null js) vs.
Proof.
  intros He. induction js as [|j js IH]; intros empty vals l l' w H.
  - exists []. constructor.
  - destruct (is_null j) eqn:Hn.
    + destruct j; try discriminate. cbn [elems] in H. destruct (IH _ _ _ _ _ H) as [vs Hvs]. exists vs. auto.
    + rewrite elems_cons in H by auto. rewrite (den_free j l He) in H.
      destruct (meaning e j) as [x|wj] eqn:Hm; cbn [andthen] in H; [discriminate|].
      destruct (v_val wj) as [v|] eqn:Hv; [|discriminate].
      unfold storing in H. destruct (p_store P v) eqn:Hst; cbn [andthen] in H; [discriminate|].
      destruct (IH _ _ _ _ _ H) as [vs Hvs]. exists (v :: vs).
      unfold non_null in *. cbn [filter]. rewrite Hn. cbn [negb]. constructor; auto. split; auto. exists wj. auto.
Qed.

(** Arrays that do not store. *)
Definition accepts (s : schema) (j : json) : Prop := exists w, meaning s j = inr w.

Lemma elems_plain e cb js : heedless e -> forall empty vals l,
  Forall (accepts e) (non_null js) ->
  elems P (den P) false e cb js empty vals l =
  end_array P false cb (empty && match non_null js with [] => true | _ => false end) vals
            (l ++ flat_map (events e) (non_null js))%list.
Proof.
  intros He. induction js as [|j js IH]; intros empty vals l H.
  - simpl in *. rewrite !app_nil_r, andb_true_r. reflexivity.
  - destruct (is_null j) eqn:Hn.
    + destruct j; try discriminate. cbn [elems]. apply IH. exact H.
    + rewrite elems_cons by auto. unfold non_null in *. cbn [filter] in *. rewrite Hn in *. cbn [negb] in *.
      inversion H as [|? ? (w & Hw) Hr]; subst.
      rewrite (den_free j l He), Hw. cbn [andthen].
      rewrite (IH false vals (l ++ events e j)%list Hr). rewrite andb_false_r, <- !app_assoc. reflexivity.
Qed.

Lemma elems_plain_inv e cb js : heedless e -> forall empty vals l l' w,
  elems P (den P) false e cb js empty vals l = (l', inr w) -> Forall (accepts e) (non_null js).
Proof.
  intros He. induction js as [|j js IH]; intros empty vals l l' w H; [constructor|].
  destruct (is_null j) eqn:Hn.
  - destruct j; try discriminate. cbn [elems] in H. exact (IH _ _ _ _ _ H).
  - rewrite elems_cons in H by auto. rewrite (den_free j l He) in H.
    destruct (meaning e j) as [x|wj] eqn:Hm; cbn [andthen] in H; [discriminate|].
    unfold non_null in *. cbn [filter]. rewrite Hn. cbn [negb]. constructor; eauto. exists wj. auto.
Qed.

(** ** Maps *)
Lemma map_free e cb ps : heedless e -> not_emb e = true -> forall vs empty kids vals l,
  Forall2 (yields P e) (map snd ps) vs ->
  body ps (SMp true e None cb) empty kids vals l =
  end_map P true cb (empty && match ps with [] => true | _ => false end)
          (insert_all (combine (map fst ps) vs) vals) (l ++ flat_map (events e) (map snd ps))%list.
Proof.
  intros He Hn. induction ps as [|[k v] ps IH]; intros vs empty kids vals l H.
  - simpl in *. rewrite andb_true_r, app_nil_r. reflexivity.
  - rewrite body_cons. cbn zeta. cbn [map snd fst flat_map] in *.
    inversion H as [|? x ? vs' ((w & Hw & Hv) & Hst) Hr]; subst.
    unfold value_of. rewrite (not_emb_embedded _ v Hn), (den_free v l He), Hw.
    cbn [andthen fst snd]. unfold end_map_elem, invoke. cbn [andthen]. unfold pops; cbn [nothing a_pops fold_left].
    rewrite Hv. unfold storing. rewrite Hst. cbn [andthen]. rewrite (IH vs') by auto. rewrite andb_false_r, <- app_assoc. reflexivity.
Qed.

Lemma map_free_inv e cb ps : heedless e -> not_emb e = true -> forall empty kids vals l l' w,
  body ps (SMp true e None cb) empty kids vals l = (l', inr w) ->
  exists vs, Forall2 (yields P e) (map snd ps) vs.
Proof.
  intros He Hn. induction ps as [|[k v] ps IH]; intros empty kids vals l l' w H.
  - exists []. constructor.
  - rewrite body_cons in H. cbn zeta in H. unfold value_of in H.
    rewrite (not_emb_embedded _ v Hn), (den_free v l He) in H.
    destruct (meaning e v) as [x|wj] eqn:Hm; cbn [andthen] in H; [discriminate|].
    unfold end_map_elem, invoke in H. cbn [andthen fst snd] in H. unfold pops in H; cbn [nothing a_pops fold_left] in H.
    destruct (v_val wj) as [x|] eqn:Hv; cbn [andthen] in H; [|discriminate].
    unfold storing in H. destruct (p_store P x) eqn:Hst; cbn [andthen] in H; [discriminate|].
    destruct (IH _ _ _ _ _ _ H) as [vs Hvs]. exists (x :: vs). cbn [map snd]. constructor; auto. split; auto. exists wj. auto.
Qed.

(** The invocations of one map element: those of the value, then the element callback. *)
Definition elem_events (e : schema) (c : cbid) (kv : string * json) : list event :=
  (events e (snd kv) ++ [Ev c (OElem (fst kv) (view_by P e (snd kv)))])%list.

Lemma map_elem_free st e c cb ps : heedless e -> not_emb e = true -> forall empty kids vals l l' w,
  body ps (SMp st e (Some c) cb) empty kids vals l = (l', inr w) ->
  exists m, (if st then True else m = vals) /\
  l' = (l ++ flat_map (elem_events e c) ps
          ++ match cb with
             | Some f => [Ev f (OSelf (View true (empty && match ps with [] => true | _ => false end)
                                        (if st then Some (VMap m) else None) 0 []))]
             | None => []
             end)%list.
Proof.
  intros He Hn. induction ps as [|[k v] ps IH]; intros empty kids vals l l' w H.
  - exists vals. split; [destruct st; auto|]. rewrite andb_true_r. simpl in H. unfold end_map in H.
    destruct cb as [f|]; cbn [invoke] in H.
    + destruct (a_res (p_cb P f l _)); unfold err in H; inversion H; subst. auto.
    + inversion H; subst. rewrite !app_nil_r. auto.
  - rewrite body_cons in H. cbn zeta in H. unfold value_of in H.
    rewrite (not_emb_embedded _ v Hn), (den_free v l He) in H.
    destruct (meaning e v) as [x|wv] eqn:Hm; cbn [andthen] in H; [discriminate|]. cbn [fst snd] in H.
    apply andthen_inv in H. destruct H as (l1 & vals' & H1 & H2). unfold end_map_elem in H1.
    apply andthen_inv in H1. destruct H1 as (l2 & u & H1 & H3). cbn [invoke] in H1.
    destruct (a_res (p_cb P c _ (OElem k wv))); unfold err in H1; try discriminate. inversion H1; subst.
    assert (Hl : l1 = ((l ++ events e v) ++ [Ev c (OElem k wv)])%list /\ (if st then True else vals' = vals)).
    { destruct st; [destruct (v_val _) as [z|]; [destruct (storing P z)|]|]; inversion H3; subst; auto. }
    destruct Hl as [-> Hv]. destruct (IH _ _ _ _ _ _ H2) as (m & K1 & ->). exists m. split.
    { destruct st; congruence. }
    rewrite andb_false_r. cbn [flat_map]. unfold elem_events at 2. cbn [fst snd].
    unfold view_by. rewrite Hm. rewrite <- !app_assoc. reflexivity.
Qed.

(** ** Objects *)

(** Members without embedded unions, whose callbacks are heedless. *)
Definition members_free (ms : list (mspec * schema)) : Prop :=
  forall mp, In mp ms -> heedless (snd mp) /\ not_emb (snd mp) = true.

Lemma members_free_nth ms i mp : members_free ms -> nth_error ms i = Some mp ->
  heedless (snd mp) /\ not_emb (snd mp) = true.
Proof. intros H Hn. apply H. eapply nth_error_In; eauto. Qed.

Lemma members_plain_free ms : members_plain ms = true -> members_free ms.
Proof.
  intros H mp Hin. unfold members_plain in H. rewrite forallb_forall in H. specialize (H mp Hin).
  apply andb_true_iff in H. destruct H. split; auto using nocb_heedless.
Qed.

Lemma own_free ms ps : members_free ms -> own ms ps.
Proof.
  intros H. unfold own. rewrite Forall_forall. intros kv _. unfold declared.
  destruct (index_of (SStr (fst kv)) ms) as [i|]; auto. destruct (nth_error ms i) as [[m c]|] eqn:Hn; auto.
  destruct (members_free_nth _ H Hn) as [_ He]. apply not_emb_embedded; auto.
Qed.

(** The invocations of one member of a document. *)
Definition pair_events (ms : list (mspec * schema)) (kv : string * json) : list event :=
  match declared ms (fst kv) with
  | Some c => events c (snd kv)
  | None => []
  end.

Lemma obj_body_free k ms ign cb ps : members_free ms -> Forall (pair_ok P ms ign) ps ->
  forall empty kids vals l,
  body ps (SObj k ms ign cb) empty kids vals l =
  end_object P k ms cb (empty && match ps with [] => true | _ => false end)
             (fold_left (step_kids P ms) ps kids) (l ++ flat_map (pair_events ms) ps)%list.
Proof.
  intros Hp H. induction H as [|[key v] ps Hkv _ IH]; intros empty kids vals l.
  - simpl. rewrite andb_true_r, app_nil_r. reflexivity.
  - rewrite body_cons. cbn zeta. cbn [fold_left flat_map]. unfold step_kids at 2, pair_events at 1. cbn [fst snd].
    unfold pair_ok, declared in *. cbn [fst snd] in Hkv.
    destruct (index_of (SStr key) ms) as [i|] eqn:Hi.
    + destruct (nth_error ms i) as [[m c]|] eqn:Hn.
      * destruct (members_free_nth _ Hp Hn) as [Hc1 Hc2]. cbn [snd] in *.
        unfold value_of. rewrite (not_emb_embedded _ v Hc2), (den_free v l Hc1).
        destruct Hkv as [w Hw]. unfold view_by. rewrite Hw. cbn [andthen fst snd]. rewrite IH.
        rewrite andb_false_r, <- app_assoc. reflexivity.
      * apply index_of_nth in Hi. destruct Hi as (mp & Hi & _). congruence.
    + subst ign. rewrite IH, andb_false_r. reflexivity.
Qed.

Lemma obj_free_inv k ms ign cb ps : members_free ms -> forall empty kids vals l l' w,
  body ps (SObj k ms ign cb) empty kids vals l = (l', inr w) -> Forall (pair_ok P ms ign) ps.
Proof.
  intros Hp. induction ps as [|[key v] ps IH]; intros empty kids vals l l' w H; [constructor|].
  rewrite body_cons in H. cbn zeta in H.
  destruct (index_of (SStr key) ms) as [i|] eqn:Hi.
  - destruct (nth_error ms i) as [[m c]|] eqn:Hn; [|discriminate].
    destruct (members_free_nth _ Hp Hn) as [Hc1 Hc2]. cbn [snd] in *.
    unfold value_of in H. rewrite (not_emb_embedded _ v Hc2), (den_free v l Hc1) in H.
    destruct (meaning c v) as [x|wv] eqn:Hm; cbn [andthen] in H; [discriminate|]. cbn [fst snd] in H.
    constructor; eauto. unfold pair_ok, declared. cbn [fst snd]. rewrite Hi, Hn. eauto.
  - destruct ign; [|discriminate]. constructor; eauto. unfold pair_ok, declared. cbn [fst snd]. rewrite Hi. auto.
Qed.

Lemma obj_free k ms ign cb ps l : members_free ms -> named ms -> Forall (pair_ok P ms ign) ps ->
  den P (JObj ps) (SObj k ms ign cb) l =
  end_object P k ms cb (match ps with [] => true | _ => false end) (map (member_view P ps) ms)
             (l ++ flat_map (pair_events ms) ps)%list.
Proof.
  intros Hp Hn H. rewrite den_obj by exact I. rewrite obj_body_free; auto. rewrite <- kids_final; auto.
Qed.

Lemma obj_den_free_inv k ms ign cb ps l l' w : members_free ms ->
  den P (JObj ps) (SObj k ms ign cb) l = (l', inr w) -> Forall (pair_ok P ms ign) ps.
Proof. intros Hp H. rewrite den_obj in H by exact I. eapply obj_free_inv; eauto. Qed.

(** Acceptable members before an unknown one. *)
Lemma members_ok ms ign ps : members_free ms -> Forall (pair_ok P ms ign) ps -> forall kids l,
  exists kids', members P ms ign ps kids l = ((l ++ flat_map (pair_events ms) ps)%list, inr kids').
Proof.
  intros Hp Hf. induction Hf as [|[k v] ps Hkv _ IH]; intros kids l; cbn [members flat_map].
  - rewrite app_nil_r. eauto.
  - unfold pair_ok, pair_events, declared in *. cbn [fst snd] in *.
    destruct (index_of (SStr k) ms) as [i|] eqn:Hi.
    + destruct (nth_error ms i) as [[m c]|] eqn:Hn.
      * destruct (members_free_nth _ Hp Hn) as [Hc1 Hc2]. cbn [snd] in *. rewrite (den_free v l Hc1).
        destruct Hkv as [w Hw]. rewrite Hw. cbn [andthen]. rewrite app_assoc. apply IH.
      * apply index_of_nth in Hi. destruct Hi as (mp & Hi & _). congruence.
    + subst ign. apply IH.
Qed.
End Free.
