(** When the root parser is set: for every token sequence, every declaration and all
    callbacks, a call that fails leaves the root parser unset, unless it had ended
    before or its own finish callback made the call fail. *)

From Verif Require Import Spec Model Infra Total Safe Refine Main Api ApiProofs History ApiFacts Calls.
Local Open Scope string_scope.
Set Implicit Arguments.

Definition started (p : parser) : bool := match p with PArr _ sd _ _ _ _ => sd | _ => false end.

(** The finish callback. *)
Definition cb_of (p : parser) : option cbid :=
  match p with
  | PVal _ _ _ cb | PArr _ _ _ _ _ cb | PMap _ _ _ _ _ _ cb | PObj _ _ _ _ _ _ cb
  | PUni _ _ _ _ _ _ _ _ cb => cb
  | PIgn _ => None
  end.

Definition cb_s (s : schema) : option cbid :=
  match s with
  | SVal _ cb | SArr _ _ cb | SMp _ _ _ cb | SObj _ _ _ cb | SUni _ _ _ _ cb => cb
  | SIgn => None
  end.

(** The kind of a parser, with the types its values have. *)
Inductive kind := KVal (t : vtype) | KArr | KMap | KObj | KUni (t : vtype) (tm : string) | KIgn.
Definition kind_of (p : parser) : kind :=
  match p with
  | PVal _ t _ _ => KVal t
  | PArr _ _ _ _ _ _ => KArr
  | PMap _ _ _ _ _ _ _ => KMap
  | PObj _ _ _ _ _ _ _ => KObj
  | PUni _ _ _ t tm _ _ _ _ => KUni t tm
  | PIgn _ => KIgn
  end.
Definition kind_s (s : schema) : kind :=
  match s with
  | SVal t _ => KVal t
  | SArr _ _ _ => KArr
  | SMp _ _ _ _ => KMap
  | SObj _ _ _ _ => KObj
  | SUni _ t tm _ _ => KUni t tm
  | SIgn => KIgn
  end.

(** Tokens that begin a value such a parser accepts. *)
Definition opener (k : kind) (t : token) : bool :=
  match k, t with
  | _, TNull => true
  | KVal ty, TSc x => vtype_eqb (ty_of x) ty
  | KArr, TArrStart => true
  | KMap, TMapStart => true
  | KObj, TMapStart => true
  | KUni _ tm, TMapStart => negb (String.eqb tm "")
  | KUni ty _, TSc x => vtype_eqb (ty_of x) ty
  | _, _ => false
  end.

(** What matters of an object here. *)
Definition sig (p : parser) := (base_of p, (kind_of p, cb_of p, started p)).

Section Unset.
Variable E : env.
Variable g : nat.
(** [w]: the root is unset or has ended; otherwise it may be set from an earlier
    document. *)
Variable w : bool.
(** [mem]: no allocation fails. *)
Variable mem : bool.
Definition roomy (s : mstate) : Prop := forall ty, kind_of (m_root s) = KVal ty -> mem = true.

Definition sok (st : list path) : Prop :=
  st = [] \/ exists pre, st = (pre ++ [[]])%list /\ Forall (fun pi : path => pi <> []) pre.

Definition V (s : mstate) : Prop :=
  disp_of (m_root s) = Some g /\ sok (m_stack s) /\
  (started (m_root s) = true -> is_set (m_root s) = false).

Definition W (s : mstate) : Prop :=
  V s /\ (w = true -> is_set (m_root s) = true -> m_stack s = []).

Definition U (s : mstate) : Prop := V s /\ (w = true -> is_set (m_root s) = false).

(** The root's own finish callback was the last one and made the call fail. *)
Definition root_failed (e : exn) (s : mstate) : Prop :=
  exists c l T a, cb_of (m_root s) = Some c /\ m_log s = (l ++ [Ev c (obs_of a)])%list /\
                cb_error msg_cb_false (co_res (e_cb E c l T a)) e.

Definition rk (s : mstate) := (kind_of (m_root s), cb_of (m_root s)).

Definition post (s : mstate) (r : res) : Prop :=
  match r with
  | ROk s' => rk s' = rk s /\ W s'
  | RThrow e s' => rk s' = rk s /\ V s' /\ (W s' \/ root_failed e s')
  | _ => True
  end.

Definition preu (c : call) (s : mstate) : Prop :=
  match c with
  | CPop => V s /\ (w = true -> is_set (m_root s) = true -> m_stack s = [] \/ m_stack s = [[]])
  | CDisp t => W s \/ (V s /\ m_stack s = [[]] /\ roomy s /\ opener (kind_of (m_root s)) t = true)
  | COn pi t => V s /\ m_stack s <> [] /\ (pi = [] -> m_stack s = [[]]) /\
                (U s \/ (pi = [] /\ roomy s /\ opener (kind_of (m_root s)) t = true))
  | CEnd pi => V s /\ (pi = [] -> m_stack s = [[]] /\ started (m_root s) = false) /\ (pi <> [] -> W s)
  | CChild pi => W s /\ (pi = [] -> m_stack s = [[]] \/ kind_of (m_root s) = KArr)
  end.

(** *** Updates *)
Lemma sig_set_child p st q : sig (set_child p st q) = sig p.
Proof. destruct p, st; reflexivity. Qed.

Lemma sig_put pi q p : pi <> [] -> sig (put pi q p) = sig p.
Proof.
  destruct pi as [|st pi]; [congruence|]. intros _. simpl.
  destruct (child p st); auto using sig_set_child.
Qed.

Lemma sig_upd s pi q : pi <> [] -> sig (m_root (upd s pi q)) = sig (m_root s).
Proof. apply sig_put. Qed.

Lemma sig_V s s' : sig (m_root s') = sig (m_root s) -> m_stack s' = m_stack s -> V s -> V s'.
Proof.
  unfold sig, V, disp_of, is_set. intros H Hs (H1 & H2 & H3). injection H as -> _ _ ->. rewrite Hs. auto.
Qed.

Lemma sig_W s s' : sig (m_root s') = sig (m_root s) -> m_stack s' = m_stack s -> W s -> W s'.
Proof.
  intros H Hs [H1 H2]. split; [apply (@sig_V s); auto|].
  rewrite Hs. unfold is_set in *. unfold sig in H. injection H as -> _ _ _. auto.
Qed.

Lemma sig_rk s s' : sig (m_root s') = sig (m_root s) -> rk s' = rk s.
Proof. unfold sig, rk. intros H. injection H as _ -> -> _. auto. Qed.

Lemma sig_disp s s' : sig (m_root s') = sig (m_root s) -> disp_of (m_root s') = disp_of (m_root s).
Proof. unfold sig, disp_of. intros H. injection H as -> _ _ _. auto. Qed.

Lemma sig_set s s' : sig (m_root s') = sig (m_root s) -> is_set (m_root s') = is_set (m_root s).
Proof. unfold sig, is_set. intros H. injection H as -> _ _ _. auto. Qed.

Lemma sig_started s s' : sig (m_root s') = sig (m_root s) -> started (m_root s') = started (m_root s).
Proof. unfold sig. intros H. injection H as _ _ _ ->. auto. Qed.

Lemma unset_at_cases p rel :
  sig (unset_at p rel) = sig p \/ sig (unset_at p rel) = sig (set_set false p).
Proof.
  unfold unset_at. destruct (get rel p) as [q|] eqn:Hg; auto. destruct (stored q); auto.
  destruct rel as [|st rel].
  - simpl in *. injection Hg as ->. auto.
  - left. apply sig_put. congruence.
Qed.

Lemma sig_set_set p p' x : sig p' = sig p -> sig (set_set x p') = sig (set_set x p).
Proof. destruct p, p'; unfold sig; simpl; congruence. Qed.

Lemma set_set_twice x y p : sig (set_set x (set_set y p)) = sig (set_set x p).
Proof. destruct p; reflexivity. Qed.

Lemma pops_cases rels : forall p,
  sig (apply_pops rels p) = sig p \/ sig (apply_pops rels p) = sig (set_set false p).
Proof.
  unfold apply_pops. induction rels as [|rel rels IH]; simpl; intros p; auto.
  destruct (IH (unset_at p rel)) as [H|H]; rewrite H.
  - apply unset_at_cases.
  - right. destruct (unset_at_cases p rel) as [K|K].
    + apply sig_set_set; auto.
    + rewrite (@sig_set_set _ _ false K). apply set_set_twice.
Qed.

(** Effects of callbacks: they may unset the root. *)
Definition lower (s s' : mstate) : Prop :=
  m_stack s' = m_stack s /\
  (sig (m_root s') = sig (m_root s) \/ sig (m_root s') = sig (set_set false (m_root s))).

Lemma lower_refl s : lower s s.
Proof. split; auto. Qed.

Lemma lower_pops pi o s : lower s (pops_eff pi o s).
Proof.
  unfold pops_eff. destruct (get pi (m_root s)) as [p|] eqn:Hg; [|apply lower_refl].
  split; auto. destruct pi as [|st pi].
  - simpl in *. injection Hg as ->. apply pops_cases.
  - left. apply sig_upd. congruence.
Qed.

Lemma lower_cust pi o s : lower s (cust_eff pi o s).
Proof.
  unfold cust_eff. destruct (get pi (m_root s)) as [p|] eqn:Hg; [|apply lower_refl].
  destruct p; try apply lower_refl. split; auto. destruct pi as [|st pi].
  - simpl in *. injection Hg as ->. 
    match goal with |- context [apply_pops ?r ?q] => destruct (pops_cases r q) as [H|H] end; rewrite H; auto.
  - left. apply sig_upd. congruence.
Qed.

Lemma lower_ne_pops pi o s : pi <> [] -> sig (m_root (pops_eff pi o s)) = sig (m_root s).
Proof.
  intros Hp. unfold pops_eff. destruct (get pi (m_root s)); auto. apply sig_upd; auto.
Qed.

Lemma lower_ne_cust pi o s : pi <> [] -> sig (m_root (cust_eff pi o s)) = sig (m_root s).
Proof.
  intros Hp. unfold cust_eff. destruct (get pi (m_root s)) as [[]|]; auto. apply sig_upd; auto.
Qed.

Lemma lower_trans s s1 s2 : lower s s1 -> lower s1 s2 -> lower s s2.
Proof.
  intros [H1 H2] [H3 H4]. split; [congruence|]. destruct H2 as [H2|H2], H4 as [H4|H4]; rewrite H4; auto.
  - right. apply sig_set_set; auto.
  - right. rewrite (@sig_set_set _ _ false H2). apply set_set_twice.
Qed.

Lemma lower_away rels s : lower s (away rels s).
Proof. split; [apply away_stack|]. rewrite away_root. apply pops_cases. Qed.

Lemma lower_upd s pi q : pi <> [] -> lower s (upd s pi q).
Proof. intros H. split; auto. left. apply sig_upd; auto. Qed.

Lemma lower_facts s s' : lower s s' ->
  m_stack s' = m_stack s /\ disp_of (m_root s') = disp_of (m_root s) /\ rk s' = rk s /\
  started (m_root s') = started (m_root s).
Proof.
  intros [H [K|K]]; unfold sig, disp_of, rk in *; injection K as K1 K2 K3 K4; rewrite K1, K2, K3, K4;
  repeat split; auto; destruct (m_root s); auto.
Qed.

Lemma lower_set s s' : lower s s' -> is_set (m_root s') = true -> is_set (m_root s) = true.
Proof.
  intros [_ [K|K]]; unfold sig, is_set in *; injection K as K1 K2 K3 K4; rewrite K1; auto.
  destruct (m_root s); simpl; congruence.
Qed.

Lemma lower_V s s' : lower s s' -> V s -> V s'.
Proof.
  intros L (H1 & H2 & H3). destruct (lower_facts L) as (F1 & F2 & F3 & F4).
  unfold V. rewrite F1, F2, F4. repeat split; auto. intros Hs.
  destruct (is_set (m_root s')) eqn:X; auto. rewrite <- (H3 Hs). symmetry. apply (lower_set L X).
Qed.

Lemma lower_W s s' : lower s s' -> W s -> W s'.
Proof.
  intros L [H1 H2]. split; [apply (lower_V L); auto|]. destruct (lower_facts L) as (F1 & _). rewrite F1.
  intros Hw Hs. apply H2; auto. apply (lower_set L); auto.
Qed.

(** *** finish() *)
Definition kept (s : mstate) (r : res) : Prop :=
  match r with
  | ROk s' | RThrow _ s' => lower s s'
  | _ => True
  end.

Lemma kept_run_cb c a eff msg s :
  (forall o s', lower s' (eff o s')) -> kept s (run_cb E c a eff msg s).
Proof.
  intros H. unfold run_cb. destruct c as [c|]; [|simpl; apply lower_refl].
  set (o := e_cb E c (m_log s) (m_root s) a).
  assert (L : lower s (away (co_away o) (eff o (add_log s (Ev c (obs_of a)))))).
  { eapply lower_trans; [|apply lower_away].
    apply lower_trans with (add_log s (Ev c (obs_of a))); [|apply H]. split; auto. }
  destruct (co_res o); simpl; auto.
Qed.

Lemma kept_lower s s1 r : lower s s1 -> kept s1 r -> kept s r.
Proof. intros L. destruct r; cbn [kept]; auto; apply lower_trans; auto. Qed.

Lemma kept_upd s pi q r : pi <> [] -> kept (upd s pi q) r -> kept s r.
Proof. intros Hp. apply kept_lower, lower_upd; auto. Qed.

Lemma finish_ne pi s : pi <> [] -> kept s (Model.finish E pi s).
Proof.
  intros Hp. unfold Model.finish, at_node. destruct (get pi (m_root s)) as [p|]; [|simpl; auto].
  assert (H1 : forall o s', lower s' (no_eff o s')) by (intros; apply lower_refl).
  assert (H2 : forall o s', lower s' (pops_eff pi o s')) by (intros; apply lower_pops).
  assert (H3 : forall o s', lower s' (cust_eff pi o s')) by (intros; apply lower_cust).
  assert (H4 : forall q e, kept s (RThrow e (upd s pi q))) by (intros; cbn [kept]; apply lower_upd; auto).
  assert (H5 : forall q, kept s (ROk (upd s pi q))) by (intros; cbn [kept]; apply lower_upd; auto).
  assert (H6 : kept s (ROk s)) by (simpl; apply lower_refl).
  destruct p; cbv iota beta; auto using kept_run_cb.
  - destruct store; auto using kept_run_cb.
  - destruct (b_empty b); auto. destruct k.
    + destruct (check_members E ms); auto using kept_run_cb.
    + destruct (set_values E ms) as [ms' [e|vs]]; auto. eapply kept_upd; eauto using kept_run_cb.
    + destruct (check_members E ms); auto using kept_run_cb.
  - destruct (b_empty b); auto. destruct store.
    + destruct (uni_set_value E cur ms) as [ms' [e|vs]]; auto. eapply kept_upd; eauto using kept_run_cb.
    + destruct (uni_check cur ms); auto using kept_run_cb.
Qed.

(** At the root. *)
Definition rooted (s : mstate) (r : res) : Prop :=
  match r with
  | ROk s' => m_stack s' = m_stack s /\ disp_of (m_root s') = disp_of (m_root s) /\ rk s' = rk s /\
              started (m_root s') = started (m_root s)
  | RThrow e s' => m_stack s' = m_stack s /\ disp_of (m_root s') = disp_of (m_root s) /\ rk s' = rk s /\
              started (m_root s') = started (m_root s) /\ (is_set (m_root s') = false \/ root_failed e s')
  | _ => True
  end.

Lemma rooted_run_cb a eff msg s c :
  (forall o s', lower s' (eff o s')) -> (forall o s', m_log (eff o s') = m_log s') ->
  c = cb_of (m_root s) -> msg = msg_cb_false -> rooted s (run_cb E c a eff msg s).
Proof.
  intros He Hl Hc Hm. unfold run_cb. destruct c as [c|]; [|simpl; auto].
  set (o := e_cb E c (m_log s) (m_root s) a). set (s0 := add_log s (Ev c (obs_of a))).
  pose proof (lower_facts (lower_trans (He o s0) (lower_away (co_away o) (eff o s0)))) as (H1 & H2 & H3 & H4).
  assert (Hrf : forall e, cb_error msg_cb_false (co_res o) e -> root_failed e (away (co_away o) (eff o s0))).
  { intros e He'. exists c, (m_log s), (m_root s), a. split.
    - unfold rk in H3. injection H3 as _ ->. simpl. auto.
    - split; auto. rewrite away_log, Hl. reflexivity. }
  destruct (co_res o) eqn:Hr; cbn [rooted]; repeat split; auto; right; apply Hrf; simpl; auto.
  subst; auto.
Qed.

Lemma rooted_upd s q r : sig q = sig (m_root s) -> rooted (upd s [] q) r -> rooted s r.
Proof.
  unfold sig. intros H. injection H as H1 H2 H3 H4.
  destruct r; cbn [rooted]; auto; unfold rk, disp_of; simpl; rewrite H1, H2, H3, H4; auto.
Qed.

Lemma finish_root s : rooted s (Model.finish E [] s).
Proof.
  unfold Model.finish, at_node. simpl get. cbv iota.
  assert (H1 : forall o s', lower s' (no_eff o s')) by (intros; apply lower_refl).
  assert (H2 : forall o s', lower s' (pops_eff [] o s')) by (intros; apply lower_pops).
  assert (H3 : forall o s', lower s' (cust_eff [] o s')) by (intros; apply lower_cust).
  assert (H4 : forall q e, sig q = sig (m_root s) -> rooted s (RThrow e (upd s [] (set_set false q)))).
  { intros q e H. unfold sig in H. injection H as K1 K2 K3 K4.
    assert (D : disp_of (set_set false q) = disp_of (m_root s)).
    { unfold disp_of. transitivity (b_disp (base_of q)); [destruct q; reflexivity|congruence]. }
    assert (A : kind_of (set_set false q) = kind_of (m_root s)) by (transitivity (kind_of q); [destruct q; reflexivity|congruence]).
    assert (C : cb_of (set_set false q) = cb_of (m_root s)) by (transitivity (cb_of q); [destruct q; reflexivity|congruence]).
    assert (S : started (set_set false q) = started (m_root s)) by (transitivity (started q); [destruct q; reflexivity|congruence]).
    assert (F : is_set (set_set false q) = false) by (destruct q; reflexivity).
    cbn [rooted]. unfold rk. simpl. rewrite D, A, C, S, F. auto 10. }
  assert (H5 : rooted s (ROk (upd s [] (set_set false (m_root s))))).
  { simpl. unfold rk, disp_of; destruct (m_root s); simpl; repeat split; auto. }
  destruct (m_root s) as [b ty v cb|b sd st vals e cb|b st key vals e ecb cb|b k v ms ig ign cb|b st v ty tm cur ms ig cb|i] eqn:Hp.
  - apply rooted_run_cb; auto. rewrite Hp; auto.
  - destruct st; apply rooted_run_cb; auto using pops_eff_log; rewrite Hp; auto.
  - apply rooted_run_cb; auto using pops_eff_log; rewrite Hp; auto.
  - destruct (b_empty b); auto. destruct k.
    + destruct (check_members E ms); auto. apply rooted_run_cb; auto using pops_eff_log; rewrite Hp; auto.
    + destruct (set_values E ms) as [ms' [e|vs]]; [auto|].
      eapply rooted_upd; [|apply rooted_run_cb; auto]. rewrite Hp; auto.
    + destruct (check_members E ms); auto. apply rooted_run_cb; auto using cust_eff_log; rewrite Hp; auto.
  - destruct (b_empty b); auto. destruct st.
    + destruct (uni_set_value E cur ms) as [ms' [e|o]]; [auto|].
      eapply rooted_upd; [|apply rooted_run_cb; auto]. rewrite Hp; auto.
    + destruct (uni_check cur ms); auto. apply rooted_run_cb; auto using pops_eff_log; rewrite Hp; auto.
  - simpl. auto.
Qed.

(** *** One call *)
Lemma U_W s : U s -> W s.
Proof. intros [H1 H2]. split; auto. intros Hw Hs. rewrite (H2 Hw) in Hs. discriminate. Qed.

Lemma W_U s : W s -> m_stack s <> [] -> U s.
Proof.
  intros [H1 H2] Hn. split; auto. intros Hw. destruct (is_set (m_root s)) eqn:Hs; auto. exfalso; auto.
Qed.

Lemma post_trans s s1 r : rk s1 = rk s -> post s1 r -> post s r.
Proof. intros H. destruct r; simpl; auto; rewrite H; auto. Qed.

Lemma post_bind s r k : post s r -> (forall s1, rk s1 = rk s -> W s1 -> post s1 (k s1)) -> post s (bind r k).
Proof. destruct r; simpl; auto. intros [H1 H2] Hk. eapply post_trans; eauto. Qed.

Lemma post_ok s s' : rk s' = rk s -> W s' -> post s (ROk s').
Proof. simpl; auto. Qed.

Lemma post_throw s e : W s -> post s (RThrow e s).
Proof. intros H. simpl. split; auto. split; [apply H|auto]. Qed.

Lemma post_throw' s s' e : rk s' = rk s -> W s' -> post s (RThrow e s').
Proof. intros K H. simpl. split; auto. split; [apply H|auto]. Qed.

Lemma post_deref s d r : post s r -> post s (deref g d r).
Proof. intros H. unfold deref. destruct d; simpl; auto. destruct (Nat.eqb n g); simpl; auto. Qed.

Lemma sok_tail q r : sok (q :: r) -> sok r /\ (r <> [] -> q <> []).
Proof.
  intros [H|(pre & H & F)]; [discriminate|]. destruct pre as [|x pre]; simpl in H; injection H as -> ->.
  - split; [left; auto|intros X; exfalso; apply X; reflexivity].
  - inversion F; subst. split; [right; eauto|auto].
Qed.

Lemma sok_root r : sok ([] :: r) -> r = [].
Proof.
  intros H. destruct r as [|x r]; auto. exfalso. destruct (sok_tail H) as [_ K]. apply K; congruence.
Qed.

Lemma sok_push pi st : sok st -> st <> [] -> pi <> [] -> sok (pi :: st).
Proof.
  intros [->|(pre & -> & F)] Hn Hp; [congruence|]. right. exists (pi :: pre). split; auto.
Qed.

Lemma ne_app (pi : path) x : (pi ++ [x])%list <> [].
Proof. destruct pi; discriminate. Qed.

Definition alike (p q : parser) : Prop :=
  disp_of q = disp_of p /\ kind_of q = kind_of p /\ cb_of q = cb_of p.

Lemma alike_upd s pi p q : get pi (m_root s) = Some p -> alike p q ->
  rk (upd s pi q) = rk s /\ disp_of (m_root (upd s pi q)) = disp_of (m_root s).
Proof.
  intros Hg (H1 & H2 & H3). destruct pi as [|st pi].
  - simpl in Hg. injection Hg as <-. unfold rk. simpl. rewrite H2, H3. split; auto.
  - assert (Hs : sig (m_root (upd s (st :: pi) q)) = sig (m_root s)) by (apply sig_upd; congruence).
    split; [apply sig_rk; auto|]. apply sig_disp; auto.
Qed.

(** An update that unsets the object. *)
Lemma U_reset s pi p q : V s -> (pi <> [] -> U s) -> get pi (m_root s) = Some p -> alike p q ->
  is_set q = false -> U (upd s pi q).
Proof.
  intros HV HU Hg Ha Hq. destruct pi as [|st pi].
  - simpl in Hg. injection Hg as <-. destruct Ha as (H1 & H2 & H3). destruct HV as (V1 & V2 & V3).
    split; [|intros _; simpl; auto]. repeat split; simpl; auto. rewrite H1; auto.
  - assert (Hn : st :: pi <> []) by congruence. destruct (HU Hn) as [H1 H2].
    assert (Hs : sig (m_root (upd s (st :: pi) q)) = sig (m_root s)) by (apply sig_upd; auto).
    split; [apply (@sig_V s); auto|]. rewrite (sig_set _ _ Hs). auto.
Qed.

(** An update that keeps the flag. *)
Lemma U_keep s pi p q : U s -> get pi (m_root s) = Some p -> alike p q ->
  is_set q = is_set p -> started q = started p -> U (upd s pi q).
Proof.
  intros HU Hg Ha Hq Hd. destruct pi as [|st pi].
  - simpl in Hg. injection Hg as <-. destruct Ha as (H1 & H2 & H3). destruct HU as [(V1 & V2 & V3) HU].
    unfold U, V; simpl. rewrite H1, Hq, Hd. auto.
  - assert (Hn : st :: pi <> []) by congruence. destruct HU as [H1 H2].
    assert (Hs : sig (m_root (upd s (st :: pi) q)) = sig (m_root s)) by (apply sig_upd; auto).
    split; [apply (@sig_V s); auto|]. rewrite (sig_set _ _ Hs). auto.
Qed.

Lemma W_keep s pi p q : W s -> get pi (m_root s) = Some p -> alike p q ->
  is_set q = is_set p -> started q = started p -> W (upd s pi q).
Proof.
  intros HW Hg Ha Hq Hd. destruct pi as [|st pi].
  - simpl in Hg. injection Hg as <-. destruct Ha as (H1 & H2 & H3). destruct HW as [(V1 & V2 & V3) HW].
    unfold W, V; simpl. rewrite H1, Hq, Hd. auto.
  - apply (@sig_W s); auto. apply sig_upd; congruence.
Qed.

Lemma U_push s pi : U s -> m_stack s <> [] -> pi <> [] -> U (push s pi).
Proof.
  intros [(V1 & V2 & V3) HU] Hn Hp. split; [|exact HU]. repeat split; simpl; auto. apply sok_push; auto.
Qed.

(** The precondition of endParsing. *)
Lemma pre_end s pi p q : V s -> (pi = [] -> m_stack s = [[]]) -> (pi <> [] -> W s) ->
  get pi (m_root s) = Some p -> alike p q -> started q = false -> preu (CEnd pi) (upd s pi q).
Proof.
  intros HV Hs HW Hg Ha Hq. destruct pi as [|st pi].
  - simpl in Hg. injection Hg as <-. destruct Ha as (H1 & H2 & H3). destruct HV as (V1 & V2 & V3).
    simpl. split; [repeat split; simpl; auto; [rewrite H1; auto|rewrite Hq; discriminate]|].
    split; [auto|congruence].
  - assert (Hn : st :: pi <> []) by congruence.
    assert (Hs' : sig (m_root (upd s (st :: pi) q)) = sig (m_root s)) by (apply sig_upd; auto).
    assert (HW' : W (upd s (st :: pi) q)) by (apply (@sig_W s); auto).
    simpl. split; [apply HW'|]. split; [congruence|auto].
Qed.

Section Step.
Variable rec : call -> mstate -> res.
Hypothesis IH : forall c s, preu c s -> post s (rec c s).

Lemma post_pop_if s d : V s -> (w = true -> is_set (m_root s) = true -> m_stack s = [] \/ m_stack s = [[]]) ->
  d = Some g \/ W s -> post s (pop_if_disp g rec d s).
Proof.
  intros HV Hs Hd. unfold pop_if_disp. destruct d as [x|].
  - apply post_deref. apply IH. simpl; auto.
  - destruct Hd as [Hd|Hd]; [discriminate|]. apply post_ok; auto.
Qed.

Lemma alike_reset p : alike p (reset p).
Proof. destruct p; repeat split. Qed.

Lemma unset_reset p : is_set (reset p) = false.
Proof. destruct p; reflexivity. Qed.

Lemma post_null s pi p : V s -> (pi <> [] -> U s) -> get pi (m_root s) = Some p -> post s (on_null g rec pi p s).
Proof.
  intros HV HU Hg. unfold on_null.
  pose proof (U_reset HV HU Hg (alike_reset p) (unset_reset p)) as H.
  destruct (alike_upd s pi Hg (alike_reset p)) as [Hk _].
  eapply post_trans; [exact Hk|]. apply post_pop_if.
  - apply H.
  - intros Hw Hs. destruct H as [_ H]. rewrite (H Hw) in Hs. discriminate.
  - right. apply U_W; auto.
Qed.

Lemma post_member A s pi p (ms : list (mspec * A)) ign nm :
  U s -> m_stack s <> [] -> get pi (m_root s) = Some p -> started p = false ->
  post s (on_member E g pi p ms ign nm s).
Proof.
  intros HU Hn Hg Hsd. unfold on_member.
  assert (Ha : alike p (set_not_empty p)) by (destruct p; repeat split).
  assert (H : U (upd s pi (set_not_empty p))).
  { eapply U_keep; eauto; destruct p; auto. }
  destruct (alike_upd s pi Hg Ha) as [Hk _].
  assert (Hp : forall x, post s (deref g (disp_of p) (ROk (push (upd s pi (set_not_empty p)) (pi ++ [x])%list)))).
  { intros x. apply post_deref. apply post_ok; [exact Hk|]. apply U_W, U_push; auto. apply ne_app. }
  destruct (lookup nm ms); auto. destruct ign; auto. apply post_throw'; auto using U_W.
Qed.

Lemma post_body c s : preu c s -> post s (call_body E g rec c s).
Proof.
  destruct c as [|t|pi t|pi|pi]; intros Hp; cbn [call_body].
  - (* CPop *)
    destruct Hp as [HV Hs]. unfold body_pop. destruct (m_stack s) as [|q r] eqn:Hst.
    + apply post_throw. split; auto.
    + destruct HV as (V1 & V2 & V3). rewrite Hst in V2. destruct (sok_tail V2) as [Ht Hq].
      destruct r as [|q' r].
      * apply post_ok; [reflexivity|]. split; [repeat split; simpl; auto|simpl; auto].
      * apply (@post_trans s (set_stack s (q' :: r))); [reflexivity|]. apply IH. simpl. split.
        -- split; [repeat split; simpl; auto|]. simpl. intros Hw Hx. destruct (Hs Hw Hx) as [H|H]; discriminate.
        -- intros ->. left. rewrite (sok_root Ht). reflexivity.
  - (* CDisp *)
    simpl in Hp. unfold body_disp. destruct (m_stack s) as [|q r] eqn:Hst.
    + apply post_throw. destruct Hp as [Hp|(_ & Hp & _)]; [auto|discriminate].
    + apply IH. simpl. rewrite Hst. destruct Hp as [Hp|(HV & Hs & Hr & Ho)].
      * split; [apply Hp|]. split; [congruence|]. split.
        -- intros ->. destruct Hp as [(_ & V2 & _) _]. rewrite Hst in V2. rewrite (sok_root V2). auto.
        -- left. apply W_U; auto. congruence.
      * injection Hs as -> ->. repeat split; auto; try apply HV. congruence.
  - (* COn *)
    destruct Hp as (HV & Hn & Hs & Ho). unfold body_on, at_node.
    destruct (get pi (m_root s)) as [p|] eqn:Hg; [|simpl; auto].
    assert (HU : pi <> [] -> U s) by (destruct Ho as [Ho|[Ho _]]; auto; congruence).
    assert (HW : pi <> [] -> W s) by (intros; apply U_W; auto).
    assert (Hthrow : forall t', opener (kind_of p) t = false -> post s (throw_unexpected t' s)).
    { intros t' Hf. apply post_throw. destruct Ho as [Ho|[-> [_ Ho]]]; [apply U_W; auto|].
      simpl in Hg. injection Hg as <-. congruence. }
    assert (HUo : opener (kind_of p) t = false -> U s).
    { intros Hf. destruct Ho as [Ho|[-> [_ Ho]]]; auto. simpl in Hg. injection Hg as <-. congruence. }
    assert (HVs : started p = true -> U s).
    { intros Hd. destruct Ho as [Ho|[-> [_ Ho]]]; auto. simpl in Hg. injection Hg as <-.
      split; auto. intros _. apply HV; auto. }
    assert (Hend : forall q, alike p q -> started q = false -> post s (rec (CEnd pi) (upd s pi q))).
    { intros q Ha Hq. destruct (alike_upd s pi Hg Ha) as [Hk _]. eapply post_trans; [exact Hk|].
      apply IH. eapply pre_end; eauto. }
    assert (Hend' : started p = false -> post s (rec (CEnd pi) s)).
    { intros Hd. apply IH. simpl. split; auto. split; auto. intros ->. split; auto.
      simpl in Hg. injection Hg as <-. auto. }
    assert (Hres : post s (ROk (upd s pi (reset p)))).
    { destruct (alike_upd s pi Hg (alike_reset p)) as [Hk _]. apply post_ok; auto.
      apply U_W. eapply U_reset; eauto using alike_reset, unset_reset. }
    destruct p as [b ty v cb|b sd st vals e cb|b st key vals e ecb cb|b k v ms ig ign cb|b st v ty tm cur ms ig cb|i].
    + unfold on_val. destruct t; try (apply Hthrow; reflexivity); [apply post_null; auto|].
      rewrite takes_scalar_eq; destruct (vtype_eqb (ty_of x) ty) eqn:Hv; [|apply Hthrow; simpl; auto].
      apply Hend; repeat split.
    + (* array *)
      assert (Hel : forall t', U s -> post s (rec (COn (pi ++ [Elem])%list t') s)).
      { intros t' Hu. apply IH. simpl. repeat split; auto; try apply HV. intros H. exfalso. eapply ne_app; eauto. }
      assert (Henter : forall t', U s -> post s (arr_enter g rec pi (PArr b sd st vals e cb) t' s)).
      { intros t' Hu. unfold arr_enter. apply post_deref.
        set (q := set_not_empty _).
        assert (Ha : alike (PArr b sd st vals e cb) q) by (repeat split).
        destruct (alike_upd s pi Hg Ha) as [Hk _].
        assert (Hu' : U (upd s pi q)) by (eapply U_keep; eauto).
        assert (Hu2 : U (push (upd s pi q) (pi ++ [Elem])%list)) by (apply U_push; auto; apply ne_app).
        apply (@post_trans s (push (upd s pi q) (pi ++ [Elem])%list)); [exact Hk|].
        apply IH. cbn [preu]. split; [apply Hu2|]. split; [discriminate|].
        split; [intros H; exfalso; eapply ne_app; eauto|auto]. }
      unfold on_arr. destruct t; try (apply Hthrow; reflexivity).
      * destruct sd; [apply Hel; auto|apply post_null; auto].
      * destruct sd; [|apply Hthrow; reflexivity]. apply post_bind; [apply Hel; auto|].
        intros s1 Hk HW1. unfold at_node. destruct (get pi (m_root s1)) as [p1|] eqn:Hg1; [|simpl; auto].
        assert (Ha : alike p1 (set_not_empty p1)) by (destruct p1; repeat split).
        destruct (alike_upd s1 pi Hg1 Ha) as [Hk1 _]. eapply post_trans; [exact Hk1|].
        apply IH. simpl. split; [eapply W_keep; eauto; destruct p1; auto|].
        intros ->. right. simpl in Hg, Hg1. injection Hg1 as <-. injection Hg as Hg.
        unfold rk in Hk. rewrite Hg in Hk. injection Hk as Hk _. destruct (m_root s1); try discriminate; auto.
      * destruct sd; [apply Henter; auto|apply Hthrow; reflexivity].
      * destruct sd; [apply Henter; auto|]. cbn [reset].
        set (q := PArr _ _ _ _ _ _).
        assert (Ha : alike (PArr b false st vals e cb) q) by (repeat split).
        destruct (alike_upd s pi Hg Ha) as [Hk _]. apply post_ok; auto.
        apply U_W. eapply U_reset; eauto.
      * apply Hend; repeat split.
    + unfold on_map. destruct t; try (apply Hthrow; reflexivity); auto.
      * apply post_null; auto.
      * apply post_deref. set (q := set_not_empty _).
        assert (Ha : alike (PMap b st key vals e ecb cb) q) by (repeat split).
        destruct (alike_upd s pi Hg Ha) as [Hk _]. apply post_ok; auto.
        apply U_W, U_push; auto; [|apply ne_app]. eapply U_keep; eauto.
    + unfold on_obj. destruct t; try (apply Hthrow; reflexivity); auto.
      * apply post_null; auto.
      * apply post_member; auto.
    + unfold on_uni. destruct t; try (apply Hthrow; reflexivity); auto.
      * apply post_null; auto.
      * rewrite takes_scalar_eq; destruct (vtype_eqb (ty_of x) ty) eqn:Hv; [|apply Hthrow; simpl; auto].
        set (q := reset _).
        assert (Ha : alike (PUni b st v ty tm cur ms ig cb) q) by apply alike_reset.
        assert (Hu : U (upd s pi q)) by (eapply U_reset; eauto).
        destruct (alike_upd s pi Hg Ha) as [Hk _]. eapply post_trans; [exact Hk|].
        apply post_bind.
        -- apply post_member; auto. simpl. eapply get_put_same; eauto.
           ++ unfold q. apply le_kind with (g := g). apply le_reset.
        -- intros s2 Hk2 HW2. unfold at_node. destruct (get pi (m_root s2)) as [p2|] eqn:Hg2; [|simpl; auto].
           destruct p2; try (apply post_ok; auto; fail).
           destruct (lookup x ms); [|apply post_ok; auto].
           match goal with |- post s2 (ROk (upd s2 pi ?q2)) =>
             match type of Hg2 with _ = Some ?q1 =>
               assert (Ha2 : alike q1 q2) by (repeat split);
               destruct (alike_upd s2 pi Hg2 Ha2) as [Hk3 _]; apply post_ok; auto;
               eapply W_keep; eauto end end.
      * destruct (String.eqb tm "") eqn:Htm; [|auto]. apply post_throw. apply U_W, HUo. simpl. rewrite Htm; auto.
      * destruct (String.eqb tm ""); [apply post_throw, U_W, HUo; auto|].
        destruct (String.eqb k tm); [apply post_ok; auto; apply U_W, HUo; auto|apply post_throw, U_W, HUo; auto].
    + assert (HUi : t <> TNull -> U s) by (intros H; apply HUo; destruct t; auto; congruence).
      assert (Hi : forall r, U s -> post s (ROk (upd s pi (PIgn (mkI (ig_b i) r))))).
      { intros r Hu. assert (Ha : alike (PIgn i) (PIgn (mkI (ig_b i) r))) by (repeat split).
        destruct (alike_upd s pi Hg Ha) as [Hk _]. apply post_ok; auto. apply U_W. eapply U_keep; eauto. }
      unfold on_ign. destruct t; try (apply Hthrow; reflexivity).
      * apply post_null; auto.
      * destruct (ig_st i); auto. apply post_ok; auto. apply U_W, HUi. discriminate.
      * apply Hi, HUi. discriminate.
      * destruct (ig_st i) as [|[] r]; try (apply Hthrow; reflexivity). apply post_ok; auto. apply U_W, HUi; discriminate.
      * destruct (ig_st i) as [|[] r]; try (apply Hthrow; reflexivity). destruct r.
        -- apply Hend; repeat split.
        -- apply Hi, HUi. discriminate.
      * apply Hi, HUi. discriminate.
      * destruct (ig_st i) as [|[] r]; try (apply Hthrow; reflexivity). destruct r.
        -- apply Hend; repeat split.
        -- apply Hi, HUi. discriminate.
  - (* CEnd *)
    destruct Hp as (HV & Hr & HW). unfold body_end, at_node.
    destruct (get pi (m_root s)) as [p|] eqn:Hg; [|simpl; auto].
    set (s1 := upd s pi (set_set true p)).
    assert (Ha : alike p (set_set true p)) by (destruct p; repeat split).
    destruct (alike_upd s pi Hg Ha) as [Hk Hd]. fold s1 in Hk, Hd.
    destruct pi as [|st pi].
    + destruct (Hr eq_refl) as [Hst Hsd]. clear Hr HW. simpl in Hg. injection Hg as <-.
      pose proof (finish_root s1) as Hf. destruct HV as (V1 & V2 & V3).
      assert (Hsd1 : started (m_root s1) = false) by (simpl; destruct (m_root s); auto).
      destruct (Model.finish E [] s1) as [s2|e s2|u|]; cbn [rooted bind] in *; auto.
      * destruct Hf as (F1 & F2 & F3 & F4).
        assert (HV2 : V s2).
        { repeat split.
          - rewrite F2, Hd; auto.
          - rewrite F1. simpl. auto.
          - rewrite F4, Hsd1. discriminate. }
        simpl get. cbv iota. eapply (@post_trans s s2); [congruence|].
        apply post_pop_if; auto.
        -- rewrite F1. simpl. auto.
        -- left. rewrite F2, Hd; auto.
      * destruct Hf as (F1 & F2 & F3 & F4 & F5).
        assert (HV2 : V s2).
        { repeat split.
          - rewrite F2, Hd; auto.
          - rewrite F1. simpl. auto.
          - rewrite F4, Hsd1. discriminate. }
        simpl. split; [congruence|]. split; auto. destruct F5 as [F5|F5]; auto.
        left. split; auto. rewrite F5. discriminate.
    + assert (Hn : st :: pi <> []) by congruence. specialize (HW Hn).
      assert (L1 : lower s s1) by (apply lower_upd; auto).
      pose proof (finish_ne s1 Hn) as Hf.
      destruct (Model.finish E (st :: pi) s1) as [s2|e s2|u|]; cbn [kept bind] in *; auto.
      * pose proof (lower_trans L1 Hf) as L.
        assert (HW2 : W s2) by (apply (lower_W L); auto). destruct (lower_facts L) as (_ & _ & F3 & _).
        destruct (get (st :: pi) (m_root s2)) as [p2|]; [|simpl; auto].
        apply (@post_trans s s2); [exact F3|].
        apply post_pop_if; auto; [apply HW2|].
        intros Hw Hx. left. apply HW2; auto.
      * pose proof (lower_trans L1 Hf) as L.
        assert (HW2 : W s2) by (apply (lower_W L); auto). destruct (lower_facts L) as (_ & _ & F3 & _).
        apply post_throw'; auto.
  - (* CChild *)
    destruct Hp as [HW Hc]. unfold body_child, at_node.
    destruct (get pi (m_root s)) as [p|] eqn:Hg; [|simpl; auto].
    destruct p as [b ty v cb|b sd st vals e cb|b st key vals e ecb cb|b k v ms ig ign cb|b st v ty tm cur ms ig cb|i];
      try (apply post_ok; auto; fail).
    + destruct st; [|apply post_ok; auto]. destruct (pop_value e) as [[v e']|]; [|apply post_throw; auto].
      assert (Ha : forall vals', alike (PArr b sd true vals e cb) (PArr b sd true vals' e' cb)) by (repeat split).
      destruct (e_store E v); [destruct (alike_upd s pi Hg (Ha vals)) as [Hk _]; apply post_throw'; auto
                              |destruct (alike_upd s pi Hg (Ha (vals ++ [v])%list)) as [Hk _]; apply post_ok; auto];
        eapply W_keep; eauto.
    + apply post_bind.
      * assert (Hx : kept s (run_cb E ecb (AElem key e) (pops_eff (pi ++ [Elem])%list) msg_ecb_false s)).
        { apply kept_run_cb. intros; apply lower_pops. }
        destruct (run_cb _ _ _ _ _ _) as [s2|e2 s2|u|]; cbn [kept] in Hx; simpl; auto;
          pose proof (lower_W Hx HW) as HW2; destruct (lower_facts Hx) as (_ & _ & F3 & _); auto.
        split; auto. split; auto. apply HW2.
      * intros s1 Hk HW1. destruct st; [|apply post_ok; auto]. unfold at_node.
        destruct (get pi (m_root s1)) as [p1|] eqn:Hg1; [|simpl; auto].
        destruct p1; try (apply post_ok; auto; fail). destruct (pop_value p1) as [[v e']|]; [|apply post_throw; auto].
        destruct (e_store E v);
        match goal with |- post s1 (_ (upd s1 pi ?q2)) =>
             match type of Hg1 with _ = Some ?q1 =>
               assert (Ha2 : alike q1 q2) by (repeat split);
               destruct (alike_upd s1 pi Hg1 Ha2) as [Hk3 _]; first [apply post_ok|apply post_throw']; auto;
               eapply W_keep; eauto end end.
    + apply post_bind.
      * apply IH. simpl. split; [apply HW|]. split; auto. intros ->. simpl in Hg. injection Hg as Hg.
        destruct (Hc eq_refl) as [H|H]; [|rewrite Hg in H; discriminate]. rewrite Hg. auto.
      * intros s1 Hk HW1. destruct (String.eqb tm ""); [|apply post_ok; auto]. unfold at_node.
        destruct (get pi (m_root s1)) as [p1|] eqn:Hg1; [|simpl; auto].
        apply post_deref. apply IH. simpl. auto.
Qed.
End Step.

Lemma post_fault c s x s' : mem = false -> preu c s -> In s' (faults g c s) -> post s (RThrow x s').
Proof.
  intros Hm Hp Hin. destruct c as [|t|pi t|pi|pi]; try contradiction.
  destruct Hp as (HV & Hn & Hs & Ho).
  assert (HU : pi <> [] -> U s) by (destruct Ho as [Ho|[Ho _]]; auto; congruence).
  assert (Huo : forall p, get pi (m_root s) = Some p ->
    match p, t with PVal _ _ _ _, TSc _ => True | _, _ => opener (kind_of p) t = false end -> U s).
  { intros p Hg Hf. destruct Ho as [Ho|[-> [Hr Ho]]]; auto. simpl in Hg. injection Hg as <-.
    destruct (m_root s) as [? ty ? ?|?|?|?|?|?] eqn:Hroot; try congruence.
    pose proof (Hr ty) as Hr'. rewrite Hroot in Hr'. specialize (Hr' eq_refl). congruence. }
  assert (Hne : forall p q, get pi (m_root s) = Some p -> U s -> alike p q -> is_set q = is_set p -> started q = started p ->
    post s (RThrow x (upd s pi q)) /\ (forall pi', pi' <> [] -> post s (RThrow x (push (upd s pi q) pi')))).
  { intros p q Hg HU' Ha H1 H2. destruct (alike_upd s pi Hg Ha) as [Hk _].
    assert (H : U (upd s pi q)) by (eapply U_keep; eauto).
    split; [apply post_throw'; auto using U_W|]. intros pi' Hp'. apply post_throw'; auto. apply U_W, U_push; auto. }
  assert (Hr : forall p, get pi (m_root s) = Some p ->
    post s (RThrow x (upd s pi (set_not_empty (reset p)))) /\
    (forall pi', pi' <> [] -> post s (RThrow x (push (upd s pi (set_not_empty (reset p))) pi')))).
  { intros p Hg. assert (Ha : alike p (set_not_empty (reset p))) by (destruct p; repeat split).
    assert (Hu : is_set (set_not_empty (reset p)) = false) by (destruct p; reflexivity).
    pose proof (U_reset HV HU Hg Ha Hu) as H. destruct (alike_upd s pi Hg Ha) as [Hk _].
    split; [apply post_throw'; auto using U_W|]. intros pi' Hp'. apply post_throw'; auto. apply U_W, U_push; auto. }
  apply (@faults_cases g (fun s' => post s (RThrow x s')) (COn pi t) s s' Hin).
  - intros pi0 t0 i Hc Ht Hg. injection Hc as <- <-. apply post_throw. apply U_W; auto.
    apply (Huo _ Hg). destruct Ht as [-> | ->]; reflexivity.
  - intros pi0 t0 p Hc Hg Hk. injection Hc as <- <-. apply (@Hne p); auto; try (destruct p; repeat split; fail).
    apply (Huo _ Hg). destruct p, t; auto; contradiction.
  - intros pi0 t0 b st vals e cb Hc Ht Hg Hd. injection Hc as <- <-.
    eapply (@Hne _ _ Hg); try reflexivity; [|repeat split]. destruct Ho as [Ho|[-> _]]; auto. simpl in Hg. injection Hg as Hg.
    split; auto. intros _. apply HV. rewrite Hg. reflexivity.
  - intros pi0 k b st key vals e ecb cb Hc Hg Hd. injection Hc as <- ->.
    eapply (@Hne _ _ Hg); try reflexivity; [|repeat split|apply ne_app]. apply (Huo _ Hg). reflexivity.
  - intros pi0 y b st v ty tm cur ms ig cb Hc Hy Hg. injection Hc as <- ->. apply (Hr _ Hg).
  - intros pi0 y b st v ty tm cur ms ig cb i Hc Hy Hg Hd Hl. injection Hc as <- ->. apply (Hr _ Hg). apply ne_app.
Qed.
End Unset.

Lemma post_env E E' g w s r : e_cb E' = e_cb E -> post E' g w s r -> post E g w s r.
Proof.
  intros He. destruct r as [s'|x s'|u|]; auto. simpl. unfold root_failed. rewrite He. auto.
Qed.

Section Runs.
Variable E : env.
Variable g : nat.
Variable w : bool.
Variable mem : bool.
Hypothesis Hmem : mem = true -> forall c m, e_alloc E c m = None.

Lemma exec_unset f : forall c s, preu g w mem c s -> post E g w s (exec E g f c s).
Proof.
  induction f as [|f IH]; intros c s H; [exact I|]. destruct mem eqn:Hm.
  - cbn [exec]. unfold Model.body. rewrite Hmem by auto. eapply post_body; eauto.
  - cbn [exec]. apply body_cases.
    + intros E' He _ _. apply post_env with E'; auto. eapply post_body; eauto.
      intros. apply post_env with E; auto.
    + intros x s' Hin. exact (@post_fault E g w false c s x s' eq_refl H Hin).
Qed.

Lemma run_unset_ ts : forall s, W g w s -> post E g w s (run E g ts s).
Proof.
  induction ts as [|t ts IH]; intros s H; simpl; [split; auto|].
  apply post_bind.
  - apply exec_unset. simpl. auto.
  - intros s1 _ HW. apply IH; auto.
Qed.

Lemma run_opener t ts s : V g s -> m_stack s = [[]] -> roomy mem s -> opener (kind_of (m_root s)) t = true ->
  post E g w s (run E g (t :: ts) s).
Proof.
  intros HV Hs Hr Ho. simpl. apply post_bind.
  - apply exec_unset. simpl. auto.
  - intros s1 _ HW. apply run_unset_; auto.
Qed.
End Runs.

Lemma run_unset E g w ts s : W g w s -> post E g w s (run E g ts s).
Proof. apply run_unset_ with (mem := false). discriminate. Qed.

(** ** Histories *)
Section Lift.
Variable tk : tokenizer.
Variable g : nat.
Variable yerr : list ascii -> string.
Notation api := (api tk).

(** A predicate on the machine that runs of tokens and reset() keep is kept by every call. *)
Section Keep.
Variable E : env.
Variable J : mstate -> Prop.
Hypothesis J_reset : forall m, J m -> J (dispatcher_reset m).
Hypothesis J_run : forall ts m, J m ->
  match run E g ts m with ROk m' | RThrow _ m' => J m' | _ => True end.

Lemma keep_after (a : api) ts x : J (a_m a) ->
  match after (run E g ts (a_m a)) x a with YOk a' | YErr a' => J (a_m a') | _ => True end.
Proof.
  intros H. pose proof (J_run ts H) as K. unfold after.
  destruct (run E g ts (a_m a)); auto. destruct x; auto.
Qed.

Lemma keep_feed bs (a : api) : J (a_m a) ->
  match feed E g bs a with YOk a' | YErr a' => J (a_m a') | _ => True end.
Proof.
  intros H. destruct (a_h a) as [st|] eqn:Hh.
  - rewrite (feed_run E g bs _ Hh). apply keep_after; auto.
  - destruct bs; simpl; rewrite Hh; auto.
Qed.

Lemma keep_complete (a : api) : J (a_m a) ->
  match complete E g a with YOk a' | YErr a' => J (a_m a') | _ => True end.
Proof.
  intros H. destruct (a_h a) as [st|] eqn:Hh.
  - rewrite (complete_run E g _ Hh). apply keep_after; auto.
  - unfold complete. rewrite Hh. auto.
Qed.

Lemma keep_op o (a : api) : J (a_m a) ->
  match do_op E g yerr o a with AOk a' | AThrow _ a' => J (a_m a') | _ => True end.
Proof.
  intros H. destruct o as [M b|M]; simpl.
  - unfold parse. destruct (M b) as [bs|]; auto. set (a1 := mkApi _ _ _ _ _).
    assert (H1 : J (a_m (do_reset a1))).
    { unfold do_reset. destruct (a_reset a1); simpl; auto. }
    pose proof (keep_feed bs (do_reset a1) H1) as K.
    destruct (feed E g bs (do_reset a1)) as [q|q| |u|]; cbn [lift_y]; auto.
    destruct (throw_cases yerr M (with_reset q true)) as [[e ->]| ->]; auto.
  - unfold Api.finish. pose proof (keep_complete (with_reset a true) H) as K.
    destruct (complete E g (with_reset a true)) as [q|q| |u|]; cbn [lift_y]; auto.
    + destruct (empty_stack (a_m q)); auto.
    + destruct (throw_cases yerr M q) as [[e ->]| ->]; auto.
Qed.

Lemma keep_ops os : forall (a a' : api), J (a_m a) -> do_ops E g yerr os a = AOk a' -> J (a_m a').
Proof.
  induction os as [|o os IH]; intros a a' H Ho; simpl in Ho.
  - injection Ho as <-. auto.
  - pose proof (keep_op o a H) as K. destruct (do_op E g yerr o a); try discriminate; eauto.
Qed.
End Keep.

Definition V_of (s : schema) (m : mstate) : Prop :=
  V g m /\ kind_of (m_root m) = kind_s s /\ cb_of (m_root m) = cb_s s.

Lemma kind_mk s : kind_of (mk s) = kind_s s.
Proof. destruct s; reflexivity. Qed.

Lemma V_start s l : V_of s (a_m (start tk g (mk s) l)).
Proof.
  split.
  - split; [|split].
    + destruct s; reflexivity.
    + right. exists []. split; auto.
    + destruct s; discriminate.
  - split; [rewrite <- kind_mk; destruct s; reflexivity|destruct s; reflexivity].
Qed.

Lemma V_reset m : V g m -> V g (mkS (m_root m) [[]] (m_log m)).
Proof.
  intros (H1 & H2 & H3). repeat split; auto. right. exists []. auto.
Qed.

Lemma V_ops s E os l a : do_ops E g yerr os (start tk g (mk s) l) = AOk a -> V_of s (a_m a).
Proof.
  apply keep_ops with (J := V_of s).
  - intros m [H1 H2]. split; auto. apply V_reset; auto.
  - intros ts m [H1 H2]. assert (HW : W g false m) by (split; auto; discriminate).
    pose proof (run_unset E ts HW) as K. destruct (run E g ts m) as [m'|e m'|u|]; auto; simpl in K.
    + destruct K as [K1 [K2 _]]. split; auto. unfold rk in K1. injection K1 as -> ->. auto.
    + destruct K as (K1 & K2 & _). split; auto. unfold rk in K1. injection K1 as -> ->. auto.
  - apply V_start.
Qed.
End Lift.
