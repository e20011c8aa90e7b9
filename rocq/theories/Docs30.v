(** Property theorems, part 30: an array is its elements, a map its entries, one by one (C56). *)

From Verif Require Import Spec Model Infra Total Safe Refine Main Api ApiProofs History ApiFacts Outcome Closed Members Json Grammar Docs3 Docs29.
Local Open Scope string_scope.
Set Implicit Arguments.

(** ** C56 *)

Section Entries.
Variable tk : tokenizer.
Variables (g : nat) (yerr : list ascii -> string).
Variable P : prog.

(** The elements [js] of an array, one after the other, each given as a document to a
    Parser of the declaration [e]. [store]: the value that get() returns after each of them is
    kept, if there is one and storing it does not throw. The result: the callbacks that have been
    invoked, whether all elements were null ([emp] so far), and the error or the kept values. *)
Inductive elements (store : bool) (e : schema) :
  list json -> bool -> list value -> list event -> bool -> list event -> string + list value -> Prop :=
| el_end emp vs l : elements store e [] emp vs l emp l (inr vs)
| el_null js emp vs l emp' l2 r : elements store e js emp vs l emp' l2 r -> elements store e (JNull :: js) emp vs l emp' l2 r
| el_rejected j js emp vs l l1 x : j <> JNull ->
    alone tk g yerr P e j l (Failed l1 x) -> elements store e (j :: js) emp vs l emp l1 (inl x)
| el_seen j js emp vs l l1 w emp' l2 r : j <> JNull -> store = false ->
    alone tk g yerr P e j l (Parsed l1 w) -> elements store e js false vs l1 emp' l2 r ->
    elements store e (j :: js) emp vs l emp' l2 r
| el_kept j js emp vs l l1 w v emp' l2 r : j <> JNull -> store = true ->
    alone tk g yerr P e j l (Parsed l1 w) -> v_val w = Some v -> p_store P v = None ->
    elements store e js false (vs ++ [v])%list l1 emp' l2 r ->
    elements store e (j :: js) emp vs l emp' l2 r
| el_unset j js emp vs l l1 w : j <> JNull -> store = true ->
    alone tk g yerr P e j l (Parsed l1 w) -> v_val w = None ->
    elements store e (j :: js) emp vs l emp l1 (inl (caught (XStd msg_unset)))
| el_full j js emp vs l l1 w v x : j <> JNull -> store = true ->
    alone tk g yerr P e j l (Parsed l1 w) -> v_val w = Some v -> p_store P v = Some x ->
    elements store e (j :: js) emp vs l emp l1 (inl (caught x)).

(** The entries [ps] of a map in the same way; after each of them the element callback is
    invoked and the value is stored (end_map_elem). *)
Inductive entries (store : bool) (e : schema) (ecb : option cbid) :
  list (string * json) -> list (string * value) -> list event -> list event -> string + list (string * value) -> Prop :=
| en_end vs l : entries store e ecb [] vs l l (inr vs)
| en_rejected k j ps vs l l1 x : embedded e j = None ->
    alone tk g yerr P e j l (Failed l1 x) -> entries store e ecb ((k, j) :: ps) vs l l1 (inl x)
| en_entry k j ps vs l l1 w l2 vs' l3 r : embedded e j = None ->
    alone tk g yerr P e j l (Parsed l1 w) -> end_map_elem P store ecb k w vs l1 = (l2, inr vs') ->
    entries store e ecb ps vs' l2 l3 r -> entries store e ecb ((k, j) :: ps) vs l l3 r
| en_refused k j ps vs l l1 w l2 x : embedded e j = None ->
    alone tk g yerr P e j l (Parsed l1 w) -> end_map_elem P store ecb k w vs l1 = (l2, inl x) ->
    entries store e ecb ((k, j) :: ps) vs l l2 (inl (caught x)).
End Entries.

(** *** Proof *)
Lemma elems_step P (D : json -> schema -> list event -> out) store e cb j js emp vs l : j <> JNull ->
  elems P D store e cb (j :: js) emp vs l =
  andthen (D j e l) (fun w l =>
      if store then
        match v_val w with
        | Some v => andthen (l, storing P v) (fun v l => elems P D store e cb js false (vs ++ [v])%list l)
        | None => err l msg_unset
        end
      else elems P D store e cb js false vs l).
Proof. destruct j; [congruence|reflexivity..]. Qed.

Lemma elem_supported st e cb j js : supported (JArr (j :: js)) (SArr st e cb) = true ->
  supported j e = true /\ supported (JArr js) (SArr st e cb) = true.
Proof.
  cbn [supported forallb]. intros H. apply andb_true_iff in H as [Hi H]. apply andb_true_iff in H as [Hj H]. rewrite Hi, H. split; auto.
  destruct j; auto.
Qed.

Lemma elements_elems (tk : tokenizer) g yerr P cb st e js emp vs l emp' l2 r :
  elements tk g yerr P st e js emp vs l emp' l2 r -> supported (JArr js) (SArr st e cb) = true ->
  expected (elems P (den P) st e cb js emp vs l) =
  match r with
  | inl x => Failed l2 x
  | inr vs' => expected (end_array P st cb emp' vs' l2)
  end.
Proof.
  intros H. induction H as [emp vs l|js emp vs l emp' l2 r H IH|j js emp vs l l1 x Hj Ha|j js emp vs l l1 w emp' l2 r Hj Hs Ha H IH
    |j js emp vs l l1 w v emp' l2 r Hj Hs Ha Hv Hp H IH|j js emp vs l l1 w Hj Hs Ha Hv|j js emp vs l l1 w v x Hj Hs Ha Hv Hp]; intros Hsup;
    [reflexivity| | | | | |].
  all: apply elem_supported in Hsup as [Hsj Hsup]; try (rewrite elems_step by auto); try (apply (alone_den Hsj) in Ha).
  - cbn [elems]. auto.
  - apply failed_inv in Ha as (y & -> & <-). reflexivity.
  - apply parsed_inv in Ha. rewrite Ha. subst st. cbn [andthen]. auto.
  - apply parsed_inv in Ha. rewrite Ha. subst st. cbn [andthen]. rewrite Hv. unfold storing. rewrite Hp. cbn [andthen]. auto.
  - apply parsed_inv in Ha. rewrite Ha. subst st. cbn [andthen]. rewrite Hv. reflexivity.
  - apply parsed_inv in Ha. rewrite Ha. subst st. cbn [andthen]. rewrite Hv. unfold storing. rewrite Hp. reflexivity.
Qed.

(** An array with the elements [js] for an array parser does what its elements that are not null do,
    one after the other, each as a document of its own for a Parser of the declaration of the
    elements; then the array ends. *)
Lemma c56_array : forall (tk tk' : tokenizer) g g' yerr yerr' P st e cb (a : api tk) M b bufs js emp l r,
  reads g yerr (SArr st e cb) a M b bufs (JArr js) -> supported (JArr js) (SArr st e cb) = true ->
  elements tk' g' yerr' P st e js true [] (past a) emp l r ->
  doc g yerr P M b bufs a =
  match r with
  | inl x => Failed l x
  | inr vs => expected (end_array P st cb emp vs l)
  end.
Proof.
  intros tk tk' g g' yerr yerr' P st e cb a M b bufs js emp l r Hr Hs H.
  rewrite (doc_expected P Hr Hs). cbn [den]. exact (elements_elems cb H Hs).
Qed.

Lemma c56_array_always : forall g yerr P st e js, printable (JArr js) = true -> supported (JArr js) (SArr st e None) = true ->
  forall emp vs l, exists emp' l2 r, elements json_tk g yerr P st e js emp vs l emp' l2 r.
Proof.
  intros g yerr P st e js Hp Hs. induction js as [|j js IH]; intros emp vs l; [repeat eexists; apply el_end|].
  cbn [printable forallb] in Hp. apply andb_true_iff in Hp as [Hj Hp]. apply elem_supported in Hs as [Hsj Hs]. specialize (IH Hp Hs).
  assert (Hn : j = JNull \/ j <> JNull) by (destruct j; [left; reflexivity|right; discriminate..]).
  destruct Hn as [-> |Hn].
  { destruct (IH emp vs l) as (emp' & l2 & r & H). eexists; eexists; eexists; eapply el_null; eauto. }
  pose proof (@alone_always g yerr P e j l Hj Hsj) as Ha. destruct (den P j e l) as [l1 [x|w]]; cbn [expected] in Ha.
  { eexists; eexists; eexists; eapply el_rejected; eauto. }
  destruct st eqn:Est.
  - destruct (v_val w) as [v|] eqn:Hv; [|eexists; eexists; eexists; eapply el_unset; eauto].
    destruct (p_store P v) as [x|] eqn:Hx; [eexists; eexists; eexists; eapply el_full; eauto|].
    destruct (IH false (vs ++ [v])%list l1) as (emp' & l2 & r & H). eexists; eexists; eexists; eapply el_kept; eauto.
  - destruct (IH false vs l1) as (emp' & l2 & r & H). eexists; eexists; eexists; eapply el_seen; eauto.
Qed.

Lemma entries_body (tk : tokenizer) g yerr P cb st e ecb ps vs l l2 r :
  entries tk g yerr P st e ecb ps vs l l2 r -> forall emp kids, sup_body supported ps (SMp st e ecb cb) = true ->
  expected (Spec.body P (den P) ps (SMp st e ecb cb) emp kids vs l) =
  match r with
  | inl x => Failed l2 x
  | inr vs' => expected (end_map P st cb (match ps with [] => emp | _ => false end) vs' l2)
  end.
Proof.
  intros H. induction H as [vs l|k j ps vs l l1 x He Ha|k j ps vs l l1 w l2 vs' l3 r He Ha Hm H IH|k j ps vs l l1 w l2 x He Ha Hm];
    intros emp kids Hsup; [reflexivity| | |].
  all: rewrite sup_body_cons in Hsup; cbn [Spec.body]; unfold sup_value in Hsup; unfold value_of; rewrite He in *;
    apply andb_true_iff in Hsup as [Hsj Hsup]; apply (alone_den Hsj) in Ha.
  - apply failed_inv in Ha as (y & -> & <-). reflexivity.
  - apply parsed_inv in Ha. rewrite Ha. cbn [andthen fst snd]. rewrite Hm. cbn [andthen]. rewrite IH by auto. destruct ps; reflexivity.
  - apply parsed_inv in Ha. rewrite Ha. cbn [andthen fst snd]. rewrite Hm. reflexivity.
Qed.

(** A map with the entries [ps] for a map parser does what its values do one after the other,
    each as a document of its own for a Parser of the declaration of the values, with the
    element callback after each of them; then the map ends. *)
Lemma c56_map : forall (tk tk' : tokenizer) g g' yerr yerr' P st e ecb cb (a : api tk) M b bufs ps l r,
  reads g yerr (SMp st e ecb cb) a M b bufs (JObj ps) -> supported (JObj ps) (SMp st e ecb cb) = true -> 
  entries tk' g' yerr' P st e ecb ps [] (past a) l r ->
  doc g yerr P M b bufs a =
  match r with
  | inl x => Failed l x
  | inr vs => expected (end_map P st cb (match ps with [] => true | _ => false end) vs l)
  end.
Proof.
  intros tk tk' g g' yerr yerr' P st e ecb cb a M b bufs ps l r Hr Hs H.
  rewrite (doc_expected P Hr Hs).
  change (den P (JObj ps) (SMp st e ecb cb) (past a)) with (Spec.body P (den P) ps (SMp st e ecb cb) true (fresh_kids (SMp st e ecb cb)) [] (past a)).
  apply (entries_body cb H). exact Hs.
Qed.

Lemma c56_map_always : forall g yerr P st e ecb ps, printable (JObj ps) = true -> supported (JObj ps) (SMp st e ecb None) = true ->
  (forall su t us ucb, e <> SUni su t "" us ucb) ->
  forall vs l, exists l2 r, entries json_tk g yerr P st e ecb ps vs l l2 r.
Proof.
  intros g yerr P st e ecb ps Hp Hs Hu. change (sup_body supported ps (SMp st e ecb None) = true) in Hs.
  assert (He : forall j, embedded e j = None).
  { intros j. destruct e as [| | | |su t tm us ucb|]; try reflexivity. destruct j; try reflexivity. cbn [embedded].
    destruct (String.eqb tm "") eqn:E; [|reflexivity]. apply String.eqb_eq in E. subst tm. exfalso. eapply Hu. reflexivity. }
  induction ps as [|[k j] ps IH]; intros vs l; [eexists; eexists; apply en_end|].
  cbn [printable forallb fst snd] in Hp. apply andb_true_iff in Hp as [Hp Hps]. apply andb_true_iff in Hp as [_ Hj].
  rewrite sup_body_cons in Hs. unfold sup_value in Hs. rewrite He in Hs. apply andb_true_iff in Hs as [Hsj Hs]. specialize (IH Hps Hs).
  pose proof (@alone_always g yerr P e j l Hj Hsj) as Ha. destruct (den P j e l) as [l1 [x|w]]; cbn [expected] in Ha.
  { eexists; eexists; eapply en_rejected; eauto. }
  destruct (end_map_elem P st ecb k w vs l1) as [l2 [x|vs']] eqn:Hm; [eexists; eexists; eapply en_refused; eauto|].
  destruct (IH vs' l2) as (l3 & r & H). eexists; eexists; eapply en_entry; eauto.
Qed.
