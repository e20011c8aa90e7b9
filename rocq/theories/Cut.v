(** Running out of memory is a cut: what a program with too little memory does is what it
    does with enough memory, up to the point where an allocation fails, and then an
    exception. *)

From Verif Require Import Spec Model Infra Total Log.
Local Open Scope string_scope.
Set Implicit Arguments.

(** The same program with enough memory. *)
Definition plenty (E : env) : env := mkEnv (e_cb E) (e_fmt E) (e_store E) (fun _ _ => None).

(** [x]: the exception of an allocation that fails. *)
Definition fails_with (E : env) (x : exn) : Prop :=
  exists c m, (exists k, e_alloc E c m = Some (FAt k x)) \/ e_alloc E c m = Some (FStore x).

(** What reaches the dispatcher: setValue() of automatic objects and unions rewraps it. *)
Definition struck (E : env) (x : exn) : Prop :=
  exists y, fails_with E y /\ (x = y \/ x = cannot_set y).

Section Cut.
Variable hit : exn -> Prop.
Variable g : nat.

(** [r]: with too little memory, [r0]: with enough. *)
Definition cut (r0 r : res) : Prop :=
  r = r0 \/ exists x y s', r = RThrow x s' /\ hit y /\ (x = y \/ x = cannot_set y) /\ ext s' r0.

Lemma cut_refl r : cut r r.
Proof. left; auto. Qed.

Lemma cut_bind r0 r h0 h : cut r0 r -> (forall s, cut (h0 s) (h s)) -> (forall s, ext s (h0 s)) ->
  cut (bind r0 h0) (bind r h).
Proof.
  intros [->|(x & y & s' & -> & Hy & Hx & Hl)] Hh He.
  - destruct r0; simpl; auto using cut_refl.
  - right. exists x, y, s'. split; [reflexivity|]. split; auto. split; auto.
    destruct r0 as [s1|e s1|u|]; simpl in *; auto. destruct Hl as [l Hl]. specialize (He s1).
    destruct (h0 s1); simpl in *; auto; destruct He as [l' He]; exists (l ++ l')%list; rewrite He, Hl, app_assoc; auto.
Qed.

Lemma cut_node s pi h0 h : (forall p, cut (h0 p) (h p)) -> cut (at_node s pi h0) (at_node s pi h).
Proof. intros H. unfold at_node. destruct (get pi (m_root s)); auto using cut_refl. Qed.

Lemma cut_deref d r0 r : cut r0 r -> cut (deref g d r0) (deref g d r).
Proof.
  intros H. unfold deref. destruct d; auto using cut_refl. destruct (Nat.eqb _ _); auto using cut_refl.
Qed.

Lemma cut_throw x y s s' r0 : hit y -> x = y \/ x = cannot_set y -> m_log s' = m_log s -> ext s r0 -> cut r0 (RThrow x s').
Proof.
  intros H1 H2 H3 H4. right. exists x, y, s'. split; [reflexivity|]. split; auto. split; auto.
  eapply ext_from; [|exact H4]. auto.
Qed.

(** Two programs that differ in the memory they have for values. *)
Record closer (E0 E : env) : Prop := mkCloser {
  cl_cb : e_cb E = e_cb E0;
  cl_fmt : e_fmt E = e_fmt E0;
  cl_store : forall v, e_store E v = e_store E0 v \/ exists x, hit x /\ e_store E v = Some x }.

Section Bodies.
Variables E0 E : env.
Hypothesis HE : closer E0 E.

Lemma run_cb_closer c a eff msg s : run_cb E c a eff msg s = run_cb E0 c a eff msg s.
Proof. unfold run_cb. rewrite (cl_cb HE). reflexivity. Qed.

Lemma set_values_closer ms :
  set_values E ms = set_values E0 ms \/ exists ms' x, hit x /\ set_values E ms = (ms', inl x).
Proof.
  induction ms as [|[m p] r IH]; cbn [set_values]; auto.
  destruct IH as [IH|(ms' & x & Hx & IH)]; rewrite IH; [|right; eauto].
  destruct (set_values E0 r) as [r' [e|vs]]; auto. unfold fmt. rewrite (cl_fmt HE).
  destruct (is_set p).
  - destruct (pop_value p) as [[v p']|]; auto.
    destruct (cl_store HE v) as [->|(x & Hx & ->)]; auto. right. eauto.
  - destruct (m_opt m); auto. destruct (m_def m) as [d|]; auto.
    destruct (cl_store HE d) as [->|(x & Hx & ->)]; auto. right. eauto.
Qed.

Lemma uni_set_closer cur ms :
  uni_set_value E cur ms = uni_set_value E0 cur ms \/ exists ms' x, hit x /\ uni_set_value E cur ms = (ms', inl x).
Proof.
  unfold uni_set_value. destruct (nth_error ms cur) as [[m p]|]; auto.
  destruct (is_set p).
  - destruct (pop_value p) as [[v p']|]; auto.
    destruct (cl_store HE v) as [->|(x & Hx & ->)]; auto. right. eauto.
  - destruct (m_opt m); auto. destruct (m_def m) as [d|]; auto.
    destruct (cl_store HE d) as [->|(x & Hx & ->)]; auto. right. eauto.
Qed.

Lemma check_closer ms : check_members E ms = check_members E0 ms.
Proof. induction ms as [|[m p] r IH]; cbn [check_members]; auto. unfold fmt. rewrite IH, (cl_fmt HE). reflexivity. Qed.

Lemma cut_finish pi s : cut (finish E0 pi s) (finish E pi s).
Proof.
  pose proof (ext_finish E0 pi s) as He. unfold finish in *. unfold at_node in *.
  destruct (get pi (m_root s)) as [p|]; [|apply cut_refl].
  destruct p; rewrite ?run_cb_closer; try apply cut_refl.
  - destruct (b_empty b); [apply cut_refl|]. rewrite check_closer. destruct k; try apply cut_refl.
    destruct (set_values_closer ms) as [H|(ms' & x & Hx & H)]; rewrite H.
    + destruct (set_values E0 ms) as [ms' [e|vs]]; rewrite ?run_cb_closer; apply cut_refl.
    + eapply cut_throw with (s := s); eauto.
  - destruct (b_empty b); [apply cut_refl|]. destruct store; try apply cut_refl.
    destruct (uni_set_closer cur ms) as [H|(ms' & x & Hx & H)]; rewrite H.
    + destruct (uni_set_value E0 cur ms) as [ms' [e|vs]]; rewrite ?run_cb_closer; apply cut_refl.
    + eapply cut_throw with (s := s); eauto.
Qed.

Section Step.
Variables rec0 rec : call -> mstate -> res.
Hypothesis IH : forall c s, cut (rec0 c s) (rec c s).
Hypothesis Hext : forall c s, ext s (rec0 c s).

Lemma on_member_closer A pi p (ms : list (mspec * A)) ign nm s : on_member E g pi p ms ign nm s = on_member E0 g pi p ms ign nm s.
Proof. unfold on_member, fmt. rewrite (cl_fmt HE). reflexivity. Qed.

Ltac cuts :=
  repeat first
    [ apply IH
    | apply cut_refl
    | apply cut_deref
    | apply cut_node; intros
    | match goal with |- cut (match ?x with _ => _ end) (match ?x with _ => _ end) => destruct x end ].

Lemma cut_body c s : cut (call_body E0 g rec0 c s) (call_body E g rec c s).
Proof.
  assert (Hx : forall c s s', m_log s' = m_log s -> ext s (rec0 c s')).
  { intros c0 s0 s' He. eapply ext_from; [exact He|apply Hext]. }
  assert (Hn : forall pi p s, cut (on_null g rec0 pi p s) (on_null g rec pi p s)).
  { intros. unfold on_null, pop_if_disp. cuts. }
  destruct c as [|t|pi t|pi|pi]; cbn [call_body].
  - unfold body_pop. cuts.
  - unfold body_disp. cuts.
  - unfold body_on. apply cut_node. intros p. destruct p.
    + unfold on_val. destruct t; auto using cut_refl. cuts.
    + unfold on_arr, arr_enter. destruct t; auto using cut_refl; cuts; auto.
      apply cut_bind; auto; intros s1; [cuts|]. apply ext_node. intros p1. apply Hx. reflexivity.
    + unfold on_map. destruct t; auto using cut_refl; cuts.
    + unfold on_obj. destruct t; auto using cut_refl; cuts.
    + unfold on_uni. destruct t; auto using cut_refl; cuts. rewrite on_member_closer.
      apply cut_refl.
    + unfold on_ign. destruct t; auto using cut_refl; cuts.
  - unfold body_end. apply cut_node. intros p. apply cut_bind; [apply cut_finish|intros s1; unfold pop_if_disp; cuts|].
    intros s1. apply ext_node. intros p1. unfold pop_if_disp. destruct (disp_of p1); [apply ext_deref; apply Hx; auto|apply ext_refl].
  - unfold body_child. apply cut_node. intros p. destruct p; try apply cut_refl.
    + destruct store; try apply cut_refl. destruct (pop_value p) as [[v e']|]; try apply cut_refl.
      destruct (cl_store HE v) as [->|(x & Hh & ->)]; [apply cut_refl|].
      apply cut_throw with (s := s) (y := x); auto.
      destruct (e_store E0 v); [apply ext_throw; auto|apply ext_same; auto].
    + rewrite run_cb_closer. apply cut_bind; [apply cut_refl| |].
      * intros s1. destruct store; [|apply cut_refl]. apply cut_node. intros p1. destruct p1; try apply cut_refl.
        destruct (pop_value p1) as [[v e']|]; try apply cut_refl.
        destruct (cl_store HE v) as [->|(x & Hh & ->)]; [apply cut_refl|].
        apply cut_throw with (s := s1) (y := x); auto.
        destruct (e_store E0 v); [apply ext_throw; auto|apply ext_same; auto].
      * intros s1. destruct store; [|apply ext_refl]. apply ext_node. intros p1. destruct p1; try apply ext_refl.
        destruct (pop_value p1) as [[v e']|]; [|apply ext_throw; auto]. destruct (e_store E0 v); [apply ext_throw; auto|apply ext_same; auto].
    + apply cut_bind; auto; intros s1; [cuts|]. destruct (String.eqb tm ""); [|apply ext_refl].
      apply ext_node. intros p1. apply ext_deref. apply Hx; auto.
Qed.
End Step.
End Bodies.
End Cut.

Section Runs.
Variable E : env.
Variable g : nat.
Notation cut := (cut (fails_with E)).

Lemma closer_plenty E' : e_cb E' = e_cb E -> e_fmt E' = e_fmt E ->
  (forall v, e_store E' v = e_store E v \/ exists x, fails_with E x /\ e_store E' v = Some x) ->
  closer (fails_with E) (plenty E) E'.
Proof. intros. split; auto. Qed.

Lemma exec_cut f : forall c s, cut (exec (plenty E) g f c s) (exec E g f c s).
Proof.
  induction f as [|f IH]; intros c s; [apply cut_refl|]. cbn [exec].
  change (Model.body (plenty E) g (exec (plenty E) g f) c s) with (call_body (plenty E) g (exec (plenty E) g f) c s).
  pose proof (exec_ext (plenty E) g f) as He.
  unfold Model.body. destruct (e_alloc E c s) as [[k x|x]|] eqn:Ha.
  - assert (Hb : cut (call_body (plenty E) g (exec (plenty E) g f) c s) (call_body E g (exec E g f) c s)).
    { apply cut_body; auto. apply closer_plenty; auto. }
    destruct (nth_error (faults g c s) k) as [s'|] eqn:Hk; auto.
    apply cut_throw with (s := s) (y := x); auto.
    + exists c, s. left. eauto.
    + eapply faults_log, nth_error_In; eauto.
    + apply call_body_ext; auto.
  - apply cut_body; auto. apply closer_plenty; auto. intros v. right. exists x. split; [|reflexivity]. exists c, s. auto.
  - apply cut_body; auto. apply closer_plenty; auto.
Qed.

Lemma run_cut ts : forall s, cut (run (plenty E) g ts s) (run E g ts s).
Proof.
  induction ts as [|t ts IH]; intros s; cbn [run]; [apply cut_refl|].
  apply cut_bind; auto; [apply exec_cut|]. intros s1. apply run_ext.
Qed.
End Runs.
