(** The callback history only grows: nothing the library does takes an invocation back. *)

From Verif Require Import Spec Model Infra Total.
Local Open Scope string_scope.
Set Implicit Arguments.

Definition ext (s : mstate) (r : res) : Prop :=
  match r with
  | ROk s' | RThrow _ s' => exists l, m_log s' = (m_log s ++ l)%list
  | _ => True
  end.

Section Log.
Variable E : env.
Variable g : nat.

Lemma ext_refl s : ext s (ROk s).
Proof. exists []. rewrite app_nil_r; auto. Qed.

Lemma ext_same s s' : m_log s' = m_log s -> ext s (ROk s').
Proof. intros H. exists []. rewrite app_nil_r; auto. Qed.

Lemma ext_throw s s' e : m_log s' = m_log s -> ext s (RThrow e s').
Proof. intros H. exists []. rewrite app_nil_r; auto. Qed.

Lemma ext_from s s' r : m_log s' = m_log s -> ext s' r -> ext s r.
Proof. intros H. destruct r; simpl; rewrite ?H; auto. Qed.

Lemma ext_bind s r k : ext s r -> (forall s', ext s' (k s')) -> ext s (bind r k).
Proof.
  destruct r as [s1|e s1|u|]; simpl; auto. intros [l H] Hk. specialize (Hk s1).
  destruct (k s1); simpl in *; auto; destruct Hk as [l' Hk]; exists (l ++ l')%list; rewrite Hk, H, app_assoc; auto.
Qed.

Lemma ext_node s pi k : (forall p, ext s (k p)) -> ext s (at_node s pi k).
Proof. unfold at_node; destruct (get _ _); simpl; auto. Qed.

Lemma ext_deref s d r : ext s r -> ext s (deref g d r).
Proof. unfold deref; destruct d; simpl; auto. destruct (Nat.eqb _ _); simpl; auto. Qed.


Lemma ext_run_cb c a eff msg s : (forall o s, m_log (eff o s) = m_log s) -> ext s (run_cb E c a eff msg s).
Proof.
  intros He. unfold run_cb. destruct c as [c|]; [|apply ext_refl].
  destruct (co_res _); exists [Ev c (obs_of a)]; rewrite away_log, He; reflexivity.
Qed.

Lemma no_eff_log o s : m_log (no_eff o s) = m_log s.
Proof. reflexivity. Qed.

Lemma pops_eff_log pi o s : m_log (pops_eff pi o s) = m_log s.
Proof. unfold pops_eff; destruct (get _ _); reflexivity. Qed.

Lemma cust_eff_log pi o s : m_log (cust_eff pi o s) = m_log s.
Proof. unfold cust_eff; destruct (get _ _) as [[]|]; reflexivity. Qed.

Lemma ext_member A pi p (ms : list (mspec * A)) ign nm s : ext s (on_member E g pi p ms ign nm s).
Proof.
  unfold on_member. destruct (lookup nm ms); [|destruct ign; [|apply ext_throw; auto]];
    apply ext_deref; apply ext_same; reflexivity.
Qed.

Ltac exts :=
  repeat first
    [ exact I
    | apply ext_refl
    | apply ext_same; reflexivity
    | apply ext_throw; reflexivity
    | apply ext_run_cb; auto using no_eff_log, pops_eff_log, cust_eff_log; fail
    | apply ext_member
    | apply ext_deref
    | apply ext_node; intros
    | apply ext_bind; [|intros]
    | match goal with |- ext ?s (match ?x with _ => _ end) => destruct x end
    | match goal with |- ext ?s (bind _ _) => apply ext_bind; [|intros] end ].

Lemma ext_finish pi s : ext s (finish E pi s).
Proof.
  unfold finish. apply ext_node. intros p. destruct p; exts;
    (eapply ext_from; [|apply ext_run_cb; auto using no_eff_log, pops_eff_log, cust_eff_log]; reflexivity).
Qed.

Lemma call_body_ext rec : (forall c s, ext s (rec c s)) -> forall c s, ext s (call_body E g rec c s).
Proof.
  intros IH c s.
  assert (H : forall c s s', m_log s' = m_log s -> ext s (rec c s')).
  { intros c0 s0 s' He. eapply ext_from; [exact He|apply IH]. }
  destruct c as [|t|pi t|pi|pi]; cbn [call_body].
  - unfold body_pop. exts; apply H; reflexivity.
  - unfold body_disp. exts; apply H; reflexivity.
  - unfold body_on. apply ext_node. intros p.
    destruct p; unfold on_val, on_arr, on_map, on_obj, on_uni, on_ign, arr_enter, on_null, throw_unexpected, pop_if_disp;
      exts; try (apply H; reflexivity);
      try (eapply ext_from; [|apply ext_member]; reflexivity).
  - unfold body_end. apply ext_node. intros p. apply ext_bind.
    + eapply ext_from; [|apply ext_finish]. reflexivity.
    + intros s'. unfold pop_if_disp. exts. apply H; reflexivity.
  - unfold body_child. apply ext_node. intros p. destruct p; exts; try (apply H; reflexivity).
Qed.
End Log.

Section All.
Variable E : env.
Variable g : nat.

Lemma exec_ext f : forall c s, ext s (exec E g f c s).
Proof.
  induction f as [|f IH]; intros c s; [exact I|]. cbn [exec]. apply body_cases.
  - intros E' _ _ _. apply call_body_ext; auto.
  - intros x s' Hin. apply ext_throw. eapply faults_log; eauto.
Qed.

Theorem dispatch_ext t s : ext s (dispatch E g t s).
Proof. apply exec_ext. Qed.

Theorem run_ext ts : forall s, ext s (run E g ts s).
Proof.
  induction ts as [|t ts IH]; intros s; cbn [run]; [apply ext_refl|].
  apply ext_bind; auto. apply dispatch_ext.
Qed.
End All.
