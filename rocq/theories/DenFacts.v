(** Consequences of the specification [den]: declarations without callbacks, and
    closed forms for arrays, maps and objects.  Nothing here is about the code. *)

From Verif Require Import Spec Model Infra Total Safe Refine Main.
Local Open Scope string_scope.
Set Implicit Arguments.

(** Declarations without callbacks. *)
Definition no_cb (c : option cbid) : bool := match c with None => true | Some _ => false end.

Fixpoint nocb (s : schema) : bool :=
  match s with
  | SVal _ cb => no_cb cb
  | SArr _ e cb => no_cb cb && nocb e
  | SMp _ e ecb cb => no_cb ecb && no_cb cb && nocb e
  | SObj _ ms _ cb | SUni _ _ _ ms cb => no_cb cb && forallb (fun mp => nocb (snd mp)) ms
  | SIgn => true
  end.

(** Two outcomes from different callback histories, both without new events. *)
Definition indep {A} (l1 l2 : list event) (o1 o2 : list event * (exn + A)) : Prop :=
  exists r, o1 = (l1, r) /\ o2 = (l2, r).

Lemma indep_same A l1 l2 (r : exn + A) : indep l1 l2 (l1, r) (l2, r).
Proof. exists r; auto. Qed.

Lemma indep_andthen A B l1 l2 (o1 o2 : list event * (exn + A)) (k : A -> list event -> list event * (exn + B)) :
  indep l1 l2 o1 o2 -> (forall a, indep l1 l2 (k a l1) (k a l2)) ->
  indep l1 l2 (andthen o1 k) (andthen o2 k).
Proof.
  intros (r & -> & ->) H. destruct r; simpl; auto using indep_same.
Qed.

Lemma nocb_nth (ms : list (mspec * schema)) i mp : forallb (fun mp => nocb (snd mp)) ms = true ->
  nth_error ms i = Some mp -> nocb (snd mp) = true.
Proof.
  intros H Hn. rewrite forallb_forall in H. apply H. eapply nth_error_In; eauto.
Qed.

Section Den.
Variable P : prog.
Notation body := (Spec.body P (den P)).

Lemma indep_end_object k ms empty kids l1 l2 :
  indep l1 l2 (end_object P k ms None empty kids l1) (end_object P k ms None empty kids l2).
Proof.
  unfold end_object, err. destruct empty; auto using indep_same.
  destruct k; [destruct (missing ms kids)|destruct (member_values P ms kids)|destruct (missing ms kids)];
    simpl; auto using indep_same.
Qed.

Lemma indep_end_union st i m w kids l1 l2 :
  indep l1 l2 (end_union P st None i m w kids l1) (end_union P st None i m w kids l2).
Proof.
  unfold end_union, err. destruct st.
  - destruct (member_value P m w _); simpl; auto using indep_same.
  - destruct (v_set w || m_opt m); simpl; auto using indep_same.
Qed.

Lemma indep_select rest1 st t ms x l1 l2 :
  (forall c, In c (map snd ms) -> indep l1 l2 (rest1 c l1) (rest1 c l2)) ->
  indep l1 l2 (select P rest1 st t ms None x l1) (select P rest1 st t ms None x l2).
Proof.
  intros H. unfold select, bad, err. destruct (vtype_eqb (ty_of x) t); auto using indep_same.
  destruct (index_of x ms) as [i|]; auto using indep_same.
  destruct (nth_error ms i) as [[m c]|] eqn:Hn; auto using indep_same.
  apply indep_andthen; auto using indep_end_union.
  apply H. apply in_map_iff. exists (m, c). split; auto. eapply nth_error_In; eauto.
Qed.

Definition indep_j (j : json) : Prop := forall s l1 l2, nocb s = true ->
  indep l1 l2 (den P j s l1) (den P j s l2).

Lemma no_cb_none c : no_cb c = true -> c = None.
Proof. destruct c; simpl; congruence. Qed.

Lemma indep_body ps : Forall (fun kv => indep_j (snd kv)) ps -> forall s empty kids vals l1 l2,
  nocb s = true -> indep l1 l2 (body ps s empty kids vals l1) (body ps s empty kids vals l2).
Proof.
  induction 1 as [|[k v] ps Hv Hps IH]; intros s empty kids vals l1 l2 Hs.
  - destruct s; simpl in *; unfold bad; auto using indep_same.
    + apply andb_true_iff in Hs. destruct Hs as [Hs _]. apply andb_true_iff in Hs.
      destruct Hs as [_ Hs]. rewrite (no_cb_none _ Hs). simpl. auto using indep_same.
    + apply andb_true_iff in Hs. destruct Hs as [Hs _]. rewrite (no_cb_none _ Hs).
      apply indep_end_object.
  - simpl in Hv.
    assert (Hval : forall c, nocb c = true ->
      indep l1 l2 (value_of P (den P) (fun c l => body ps c true (fresh_kids c) [] l) c v l1)
                  (value_of P (den P) (fun c l => body ps c true (fresh_kids c) [] l) c v l2)).
    { intros c Hc. unfold value_of. destruct (embedded c v) as [[[[[st t] ms] cb] x]|] eqn:He.
      - destruct c; simpl in He; try discriminate. destruct v; try discriminate.
        destruct (String.eqb tm ""); inversion He; subst. simpl in Hc. apply andb_true_iff in Hc.
        destruct Hc as [Hc1 Hc2]. rewrite (no_cb_none _ Hc1).
        apply indep_andthen; auto using indep_same. apply indep_select.
        intros c Hin. apply in_map_iff in Hin. destruct Hin as (mp & <- & Hin).
        apply IH. rewrite forallb_forall in Hc2. auto.
      - apply indep_andthen; auto using indep_same. }
    rewrite !body_cons. cbn zeta. destruct s; simpl in Hs; unfold bad, err; auto using indep_same.
    + apply andb_true_iff in Hs. destruct Hs as [Hs He]. apply andb_true_iff in Hs.
      destruct Hs as [Hecb Hcb]. rewrite (no_cb_none _ Hecb), (no_cb_none _ Hcb).
      apply indep_andthen; auto. intros [f w]. apply indep_andthen.
      * unfold end_map_elem. apply indep_andthen; simpl; auto using indep_same.
        intros w'. destruct store; auto using indep_same. destruct (v_val w') as [v'|]; auto using indep_same.
        destruct (storing P v'); cbn [andthen]; auto using indep_same.
      * intros vals'. destruct f; simpl; [unfold end_map; simpl; auto using indep_same|].
        apply IH. simpl. rewrite He. auto.
    + apply andb_true_iff in Hs. destruct Hs as [Hcb Hms]. rewrite (no_cb_none _ Hcb).
      destruct (index_of (SStr k) ms) as [i|].
      * destruct (nth_error ms i) as [[m c]|] eqn:Hn; auto using indep_same.
        apply indep_andthen; [apply Hval; apply (nocb_nth _ _ Hms Hn)|].
        intros [f w]. cbn [fst snd]. destruct f; [auto using indep_end_object|apply IH; simpl; auto].
      * destruct ign; [apply IH; simpl; auto|auto using indep_same].
    + apply andb_true_iff in Hs. destruct Hs as [Hcb Hms]. rewrite (no_cb_none _ Hcb).
      destruct (String.eqb tm ""); auto using indep_same.
      destruct (String.eqb k tm); auto using indep_same.
      destruct v; auto using indep_same. apply indep_select.
      intros c Hin. apply in_map_iff in Hin. destruct Hin as (mp & <- & Hin).
      apply IH. rewrite forallb_forall in Hms. auto.
Qed.

Lemma indep_elems st e js : Forall indep_j js -> nocb e = true -> forall empty vals l1 l2,
  indep l1 l2 (elems P (den P) st e None js empty vals l1) (elems P (den P) st e None js empty vals l2).
Proof.
  intros Hjs He. induction Hjs as [|j js Hj _ IH]; intros empty vals l1 l2.
  - simpl. unfold end_array. destruct st; simpl; auto using indep_same.
  - destruct (is_null j) eqn:Hn; [destruct j; try discriminate; apply IH|].
    rewrite !elems_cons by auto. apply indep_andthen; auto.
    intros w. destruct st; auto. destruct (v_val w) as [v|]; unfold err; auto using indep_same.
    destruct (storing P v); cbn [andthen]; auto using indep_same.
Qed.

Lemma indep_den j : indep_j j.
Proof.
  induction j as [|x|js IH|ps IH] using json_ind'; intros s l1 l2 Hs.
  - simpl. auto using indep_same.
  - simpl. unfold bad. destruct s; auto using indep_same. simpl in Hs. rewrite (no_cb_none _ Hs).
    unfold end_value; simpl. destruct (vtype_eqb (ty_of x) t); auto using indep_same.
  - destruct s; simpl; unfold bad; auto using indep_same. simpl in Hs.
    apply andb_true_iff in Hs. destruct Hs as [H1 H2]. rewrite (no_cb_none _ H1).
    apply indep_elems; auto.
  - destruct s; simpl; unfold bad, err; auto using indep_same; try (apply indep_body; auto).
    destruct (String.eqb tm ""); auto using indep_same. apply indep_body; auto.
Qed.

(** What a declaration without callbacks makes of a document. *)
Definition meaning (s : schema) (j : json) : exn + view := snd (den P j s []).

Lemma den_meaning j s l : nocb s = true -> den P j s l = (l, meaning s j).
Proof.
  intros Hs. destruct (@indep_den j s l [] Hs) as (r & H1 & H2). unfold meaning. rewrite H1, H2. auto.
Qed.
End Den.
