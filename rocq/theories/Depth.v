(** How deep the dispatcher's stack and the recursion can get: not deeper than the
    declaration, whatever the document. *)

From Verif Require Import Spec Model Infra Total Safe.
Local Open Scope string_scope.
Set Implicit Arguments.

(** Every parser on the stack is a proper part of the one below it (the stack is
    written top first). *)
Fixpoint nested (st : list path) : Prop :=
  match st with
  | x :: ((y :: _) as r) => (exists n rel, x = (y ++ n :: rel)%list) /\ nested r
  | _ => True
  end.

Section Chain.
Variable E : env.
Variable g : nat.

Definition under (pi : path) (st : list path) : Prop :=
  match st with [] => True | top :: _ => exists rel, pi = (top ++ rel)%list end.

Definition cpre (c : call) (s : mstate) : Prop :=
  nested (m_stack s) /\ match c with COn pi _ => under pi (m_stack s) | _ => True end.

Definition cpost (r : res) : Prop :=
  match r with ROk s | RThrow _ s => nested (m_stack s) | _ => True end.

Lemma nested_push pi n st : nested st -> under pi st -> nested ((pi ++ [n])%list :: st).
Proof.
  intros H Hu. destruct st as [|top r]; [exact I|]. split; [|exact H].
  destruct Hu as [rel ->]. destruct rel as [|m rel].
  - exists n, []. rewrite app_nil_r. reflexivity.
  - exists m, (rel ++ [n])%list. rewrite <- app_assoc. reflexivity.
Qed.

Lemma nested_tail x st : nested (x :: st) -> nested st.
Proof. destruct st; simpl; tauto. Qed.

Lemma under_top x st : under x (x :: st).
Proof. exists []. rewrite app_nil_r. reflexivity. Qed.

Lemma under_app pi rel st : under pi st -> under (pi ++ rel)%list st.
Proof. destruct st as [|top r]; simpl; auto. intros [x ->]. exists (x ++ rel)%list. rewrite app_assoc. auto. Qed.

Lemma cpost_bind r k : cpost r -> (forall s, nested (m_stack s) -> cpost (k s)) -> cpost (bind r k).
Proof. destruct r; simpl; auto. Qed.

Lemma cpost_quiet s r : nested (m_stack s) -> quiet s r -> cpost r.
Proof. destruct r; simpl; auto; intros H ->; auto. Qed.

Lemma cpost_deref d r : cpost r -> cpost (deref g d r).
Proof. unfold deref. destruct d as [x|]; simpl; auto. destruct (Nat.eqb x g); simpl; auto. Qed.

Lemma cpost_member A pi p (ms : list (mspec * A)) ign nm s :
  nested (m_stack s) -> under pi (m_stack s) -> cpost (on_member E g pi p ms ign nm s).
Proof.
  intros H Hu. unfold on_member. destruct (lookup nm ms).
  - apply cpost_deref. simpl. apply nested_push; auto.
  - destruct ign; [apply cpost_deref|simpl; auto]. simpl. apply nested_push; auto.
Qed.

Lemma quiet_member A pi p (ms : list (mspec * A)) nm s :
  match on_member E g pi p ms false nm s with
  | ROk s' => exists n, m_stack s' = (pi ++ [n])%list :: m_stack s
  | _ => True
  end.
Proof.
  unfold on_member. destruct (lookup nm ms); auto. unfold deref. destruct (disp_of p) as [x|]; auto.
  destruct (Nat.eqb x g); simpl; eauto.
Qed.

Section Step.
Variable rec : call -> mstate -> res.
Hypothesis IH : forall c s, cpre c s -> cpost (rec c s).

Lemma cpost_pop_if d s : nested (m_stack s) -> cpost (pop_if_disp g rec d s).
Proof.
  intros H. unfold pop_if_disp. destruct d; [|exact H]. apply cpost_deref. apply IH. split; auto; exact I.
Qed.

Lemma cpost_null pi p s : nested (m_stack s) -> cpost (on_null g rec pi p s).
Proof. intros H. unfold on_null. apply cpost_pop_if. auto. Qed.

Lemma call_body_nested c s : cpre c s -> cpost (call_body E g rec c s).
Proof.
  intros [H Hc]. destruct c as [|t|pi t|pi|pi]; cbn [call_body].
  - unfold body_pop. destruct (m_stack s) as [|x st] eqn:Hs; [simpl; rewrite Hs; exact I|].
    apply nested_tail in H. destruct st as [|q st]; [exact I|]. apply IH. split; [exact H|exact I].
  - unfold body_disp. destruct (m_stack s) as [|q st] eqn:Hs; [simpl; rewrite Hs; exact I|].
    apply IH. split; [rewrite Hs; auto|]. rewrite Hs. apply under_top.
  - unfold body_on, at_node. destruct (get pi (m_root s)) as [p|]; [|exact I].
    assert (Hend : forall s', m_stack s' = m_stack s -> cpost (rec (CEnd pi) s')).
    { intros s' Hs. apply IH. split; [rewrite Hs; auto|exact I]. }
    assert (Hel : forall t', cpost (rec (COn (pi ++ [Elem])%list t') s)).
    { intros t'. apply IH. split; auto. apply under_app; auto. }
    destruct p as [b ty v cb|b sd st vals e cb|b st key vals e ecb cb|b k v ms ig ign cb|b st v ty tm cur ms ig cb|i].
    + unfold on_val. destruct t; try exact H; [apply cpost_null; auto|].
      destruct (takes_scalar ty x); [apply Hend; auto|exact H].
    + assert (Henter : forall t', cpost (arr_enter g rec pi (PArr b sd st vals e cb) t' s)).
      { intros t'. unfold arr_enter. apply cpost_deref. apply IH. split; [simpl; apply nested_push; auto|].
        apply under_top. }
      unfold on_arr. destruct t; try exact H.
      * destruct sd; auto. apply cpost_null; auto.
      * destruct sd; [|exact H]. apply cpost_bind; auto. intros s1 H1. unfold at_node.
        destruct (get pi (m_root s1)); [|exact I]. apply IH. split; auto; exact I.
      * destruct sd; auto.
      * destruct sd; auto.
      * apply Hend. auto.
    + unfold on_map. destruct t; try exact H; auto.
      * apply cpost_null; auto.
      * apply cpost_deref. simpl. apply nested_push; auto.
    + unfold on_obj. destruct t; try exact H; auto.
      * apply cpost_null; auto.
      * apply cpost_member; auto.
    + unfold on_uni. destruct t; try exact H; auto.
      * apply cpost_null; auto.
      * destruct (takes_scalar ty x); [|exact H]. apply cpost_bind.
        -- apply cpost_member; auto.
        -- intros s2 H2. unfold at_node. destruct (get pi (m_root s2)) as [[]|]; try exact I; try exact H2.
           destruct (lookup x ms); exact H2.
      * destruct (String.eqb tm ""); exact H.
      * destruct (String.eqb tm ""); [exact H|]. destruct (String.eqb k tm); exact H.
    + unfold on_ign. destruct t; try exact H.
      * apply cpost_null; auto.
      * destruct (ig_st i); auto.
      * destruct (ig_st i) as [|[] r]; exact H.
      * destruct (ig_st i) as [|[] r]; try exact H. destruct r; [apply Hend; auto|exact H].
      * destruct (ig_st i) as [|[] r]; try exact H. destruct r; [apply Hend; auto|exact H].
  - unfold body_end, at_node. destruct (get pi (m_root s)) as [p|]; [|exact I].
    apply cpost_bind.
    + eapply (@cpost_quiet (upd s pi (set_set true p))); [exact H|apply finish_quiet].
    + intros s2 H2. destruct (get pi (m_root s2)); [|exact I]. apply cpost_pop_if; auto.
  - unfold body_child, at_node. destruct (get pi (m_root s)) as [p|]; [|exact I].
    destruct p as [b ty v cb|b sd st vals e cb|b st key vals e ecb cb|b k v ms ig ign cb|b st v ty tm cur ms ig cb|i];
      try exact H.
    + destruct st; [|exact H]. destruct (pop_value e) as [[v e']|]; [destruct (e_store E v)|]; exact H.
    + apply cpost_bind.
      * eapply cpost_quiet; [exact H|]. apply run_cb_quiet. intros; apply pops_eff_stack.
      * intros s1 H1. destruct st; [|exact H1]. destruct (get pi (m_root s1)) as [[]|]; try exact I; try exact H1.
        match goal with |- context [pop_value ?q] => destruct (pop_value q) as [[v e']|]; [destruct (e_store E v)|]; exact H1 end.
    + apply cpost_bind.
      * apply IH. split; auto.
      * intros s1 H1. destruct (String.eqb tm ""); [|exact H1]. destruct (get pi (m_root s1)); [|exact I].
        apply cpost_deref. apply IH. split; auto; exact I.
Qed.
End Step.

Lemma fault_nested c s x s' : cpre c s -> In s' (faults g c s) -> cpost (RThrow x s').
Proof.
  intros [H Hc] Hin. destruct c as [|t|pi t|pi|pi]; try contradiction. cbn [faults] in Hin.
  destruct (get pi (m_root s)) as [[]|]; try contradiction; destruct t; try contradiction;
    repeat match type of Hin with context [if ?x then _ else _] => destruct x | context [lookup ?a ?b] => destruct (lookup a b) end;
    unfold live in Hin; try destruct (b_disp b) as [d|]; try destruct (Nat.eqb d g);
    simpl in Hin; repeat destruct Hin as [<-|Hin]; try contradiction; simpl; auto; apply nested_push; auto.
Qed.
End Chain.

Section All.
Variable E : env.
Variable g : nat.

Lemma body_nested rec c s : (forall c s, cpre c s -> cpost (rec c s)) -> cpre c s -> cpost (Model.body E g rec c s).
Proof.
  intros IH H. apply body_cases.
  - intros E' _ _ _. apply call_body_nested; auto.
  - intros x s' Hs. eapply fault_nested; eauto.
Qed.

Lemma exec_nested f : forall c s, cpre c s -> cpost (exec E g f c s).
Proof. induction f as [|f IH]; intros c s H; simpl; auto. apply body_nested; auto. Qed.

Lemma run_nested ts : forall s, nested (m_stack s) -> cpost (run E g ts s).
Proof.
  induction ts as [|t ts IH]; intros s H; simpl; [exact H|].
  apply cpost_bind; auto. apply exec_nested. split; auto; exact I.
Qed.
End All.

(** *** Lengths *)
Lemma get_length pi : forall p q, get pi p = Some q -> List.length pi < height p.
Proof.
  induction pi as [|st pi IH]; intros p q H; simpl in *.
  - apply (height_pos p).
  - destruct (child p st) as [c|] eqn:Hc; [|discriminate]. specialize (IH _ _ H). apply child_height in Hc. lia.
Qed.

Lemma nested_length st : nested st -> match st with [] => True | top :: _ => List.length st <= S (List.length top) end.
Proof.
  induction st as [|x st IH]; auto. destruct st as [|y st]; intros H; [simpl; lia|].
  destruct H as [(n & rel & ->) H]. specialize (IH H). rewrite app_length. simpl in *. lia.
Qed.

(** The depth of a declaration: as [height] of its parser. *)
Lemma le_height_mut g : (forall p q, le_p g p q -> height p = height q) /\
  (forall p q, le_ms g p q -> map (fun mp => height (snd mp)) p = map (fun mp => height (snd mp)) q).
Proof.
  apply le_mut; intros; cbn [height map snd]; auto; try congruence.
Qed.

Lemma le_height g p q : le_p g p q -> height p = height q.
Proof. apply (proj1 (le_height_mut g)). Qed.

Lemma stack_height g s m : inv g s m -> nested (m_stack m) -> List.length (m_stack m) <= height (m_root m).
Proof.
  intros Hi Hn. apply nested_length in Hn. pose proof (inv_stack Hi) as Hs.
  destruct (m_stack m) as [|top st]; [simpl; lia|]. inversion Hs; subst.
  destruct H1 as (p & Hp & _). apply get_length in Hp. lia.
Qed.
