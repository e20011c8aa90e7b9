(** pop() inside a callback: what it popped stays unset while the rest of the token is
    handled. *)

From Verif Require Import Spec Model Infra Total Log.
Local Open Scope string_scope.
Set Implicit Arguments.

Definition tm_of (p : parser) : option string :=
  match p with PUni _ _ _ _ tm _ _ _ _ => Some tm | _ => None end.

(** [q] is [p] after changes that set no parser in it. *)
Definition lessen (p q : parser) : Prop :=
  (forall rel x, get rel q = Some x ->
    exists y, get rel p = Some y /\ same_kind y x /\ tm_of x = tm_of y /\
              (stored x = None -> stored y = None) /\ (is_set x = true -> is_set y = true)) /\
  (forall rel y, get rel p = Some y -> exists x, get rel q = Some x).

Lemma lessen_refl p : lessen p p.
Proof. split; [intros rel x H; exists x; auto using same_kind_refl|eauto]. Qed.

Lemma lessen_trans p q r : lessen p q -> lessen q r -> lessen p r.
Proof.
  intros [H1 R1] [H2 R2]. split; [|intros rel y Hy; destruct (R1 _ _ Hy) as [x Hx]; eauto].
  intros rel x Hx. destruct (H2 rel x Hx) as (y & Hy & K1 & K2 & K4 & K3).
  destruct (H1 rel y Hy) as (z & Hz & L1 & L2 & L4 & L3). exists z. repeat split; auto; [|congruence].
  eapply same_kind_trans; eauto.
Qed.

Lemma lessen_kind p q : lessen p q -> same_kind p q.
Proof. intros [H _]. destruct (H [] q eq_refl) as (y & Hy & K & _). inversion Hy; subst; auto. Qed.

(** Changes at the node itself. *)
Lemma lessen_node p q : same_kind p q -> tm_of q = tm_of p -> (stored q = None -> stored p = None) ->
  (is_set q = true -> is_set p = true) ->
  (forall st x, child q st = Some x -> exists y, child p st = Some y /\ lessen y x) ->
  (forall st y, child p st = Some y -> exists x, child q st = Some x) -> lessen p q.
Proof.
  intros H1 H2 H4 H3 Hc Hb. split.
  - intros rel x Hx. destruct rel as [|st rel]; simpl in *.
    + inversion Hx; subst. exists p; auto.
    + destruct (child q st) as [c|] eqn:Hq; [|discriminate]. destruct (Hc st c Hq) as (y & Hy & Hl).
      rewrite Hy. apply Hl; auto.
  - intros rel y Hy. destruct rel as [|st rel]; simpl in *; [eauto|].
    destruct (child p st) as [d|] eqn:Hp; [|discriminate]. destruct (Hb st d Hp) as (x & Hx). rewrite Hx.
    destruct (Hc st x Hx) as (y' & Hy' & Hl). rewrite Hp in Hy'. inversion Hy'; subst. eapply (proj2 Hl); eauto.
Qed.

Lemma lessen_child p st c q : child p st = Some c -> lessen c q -> lessen p (set_child p st q).
Proof.
  intros Hc Hl. apply lessen_node; try (destruct p, st; simpl; auto; fail).
  - intros st' x Hx. destruct (step_eq_dec st st') as [<-|Hn].
    + assert (Hf : fits st q) by (eapply fits_same_kind; [exact Hc|apply lessen_kind; auto]).
      rewrite (child_set_child_eq p st q Hc Hf) in Hx. inversion Hx; subst. exists c; auto.
    + rewrite child_set_child_neq in Hx by auto. eauto using lessen_refl.
  - intros st' y Hy. destruct (step_eq_dec st st') as [<-|Hn].
    + assert (Hf : fits st q) by (eapply fits_same_kind; [exact Hc|apply lessen_kind; auto]).
      rewrite (child_set_child_eq p st q Hc Hf). eauto.
    + rewrite child_set_child_neq by auto. eauto.
Qed.

Lemma lessen_put pi : forall T p q, get pi T = Some p -> lessen p q -> lessen T (put pi q T).
Proof.
  induction pi as [|st pi IH]; simpl; intros T p q H Hl; [inversion H; subst; auto|].
  destruct (child T st) as [c|] eqn:Hc; [|discriminate].
  eapply lessen_child; eauto.
Qed.

Lemma lessen_base p b : (b_set b = true -> is_set p = true) -> lessen p (with_base p b).
Proof.
  intros H. apply lessen_node; try (destruct p; simpl; auto; fail).
  - intros st x Hx. exists x. split; [|apply lessen_refl]. destruct p, st; simpl in *; auto.
  - intros st y Hy. exists y. destruct p, st; simpl in *; auto.
Qed.

Lemma lessen_unset p : lessen p (set_set false p).
Proof. apply lessen_base. destruct p; simpl; discriminate. Qed.

Lemma lessen_ne p : lessen p (set_not_empty p).
Proof. apply lessen_base. destruct p; simpl; auto. Qed.

Inductive lessen_ms : list (mspec * parser) -> list (mspec * parser) -> Prop :=
| lm_nil : lessen_ms [] []
| lm_cons m p q r r' : lessen p q -> lessen_ms r r' -> lessen_ms ((m, p) :: r) ((m, q) :: r').

Lemma lessen_ms_refl ms : lessen_ms ms ms.
Proof. induction ms as [|[m p] r IH]; constructor; auto using lessen_refl. Qed.

Lemma lessen_ms_nth ms ms' n mp : lessen_ms ms ms' -> nth_error ms' n = Some mp ->
  exists mp0, nth_error ms n = Some mp0 /\ lessen (snd mp0) (snd mp).
Proof.
  intros H. revert n. induction H as [|m p q r r' Hl _ IH]; intros [|n] Hn; simpl in *; try discriminate.
  - inversion Hn; subst. eauto.
  - auto.
Qed.

Lemma lessen_ms_back ms ms' n mp : lessen_ms ms ms' -> nth_error ms n = Some mp ->
  exists mp', nth_error ms' n = Some mp'.
Proof.
  intros H. revert n. induction H as [|m p q r r' Hl _ IH]; intros [|n] Hn; simpl in *; try discriminate; eauto.
Qed.

Lemma lessen_set_mem n q ms mp : nth_error ms n = Some mp -> lessen (snd mp) q -> lessen_ms ms (set_mem n q ms).
Proof.
  intros Hn Hl. unfold set_mem. rewrite Hn. revert n Hn. induction ms as [|[m p] r IH]; intros [|n] Hn; simpl in *; try discriminate.
  - inversion Hn; subst. constructor; auto using lessen_ms_refl.
  - constructor; auto using lessen_refl.
Qed.

Lemma lessen_obj b b' k v v' ms ms' ig ig' ign cb : (b_set b' = true -> b_set b = true) ->
  lessen_ms ms ms' -> lessen (PIgn ig) (PIgn ig') -> lessen (PObj b k v ms ig ign cb) (PObj b' k v' ms' ig' ign cb).
Proof.
  intros H Hm Hi. apply lessen_node; simpl; auto; [destruct k; auto; discriminate| |].
  - intros st x Hx. destruct st as [|n|]; simpl in *; try discriminate.
    + destruct (nth_error ms' n) as [mp|] eqn:Hn; [|discriminate]. simpl in Hx. inversion Hx; subst.
      destruct (lessen_ms_nth _ Hm Hn) as (mp0 & Hn0 & Hl). rewrite Hn0. simpl. eauto.
    + inversion Hx; subst. eauto.
  - intros st y Hy. destruct st as [|n|]; simpl in *; try discriminate; eauto.
    destruct (nth_error ms n) as [mp|] eqn:Hn; [|discriminate].
    destruct (lessen_ms_back _ Hm Hn) as (mp' & Hn'). rewrite Hn'. simpl. eauto.
Qed.

Lemma lessen_uni b b' st v v' t tm c c' ms ms' ig ig' cb : (b_set b' = true -> b_set b = true) ->
  lessen_ms ms ms' -> lessen (PIgn ig) (PIgn ig') -> lessen (PUni b st v t tm c ms ig cb) (PUni b' st v' t tm c' ms' ig' cb).
Proof.
  intros H Hm Hi. apply lessen_node; simpl; auto; [destruct st; auto; discriminate| |].
  - intros st' x Hx. destruct st' as [|n|]; simpl in *; try discriminate.
    + destruct (nth_error ms' n) as [mp|] eqn:Hn; [|discriminate]. simpl in Hx. inversion Hx; subst.
      destruct (lessen_ms_nth _ Hm Hn) as (mp0 & Hn0 & Hl). rewrite Hn0. simpl. eauto.
    + inversion Hx; subst. eauto.
  - intros st' y Hy. destruct st' as [|n|]; simpl in *; try discriminate; eauto.
    destruct (nth_error ms n) as [mp|] eqn:Hn; [|discriminate].
    destruct (lessen_ms_back _ Hm Hn) as (mp' & Hn'). rewrite Hn'. simpl. eauto.
Qed.

Lemma lessen_arr b b' sd sd' st v v' e e' cb : (b_set b' = true -> b_set b = true) -> lessen e e' ->
  lessen (PArr b sd st v e cb) (PArr b' sd' st v' e' cb).
Proof.
  intros H He. apply lessen_node; simpl; auto; [destruct st; auto; discriminate| |].
  - intros st' x Hx. destruct st'; simpl in *; try discriminate. inversion Hx; subst. eauto.
  - intros st' y Hy. destruct st'; simpl in *; try discriminate. eauto.
Qed.

Lemma lessen_map b b' st k k' v v' e e' ecb cb : (b_set b' = true -> b_set b = true) -> lessen e e' ->
  lessen (PMap b st k v e ecb cb) (PMap b' st k' v' e' ecb cb).
Proof.
  intros H He. apply lessen_node; simpl; auto; [destruct st; auto; discriminate| |].
  - intros st' x Hx. destruct st'; simpl in *; try discriminate. inversion Hx; subst. eauto.
  - intros st' y Hy. destruct st'; simpl in *; try discriminate. eauto.
Qed.

Lemma lessen_pop p v q : pop_value p = Some (v, q) -> lessen p q.
Proof. unfold pop_value. destruct (get_value p); [|discriminate]. intros H; inversion H; subst. apply lessen_unset. Qed.

Lemma lessen_unset_at p rel : lessen p (unset_at p rel).
Proof.
  unfold unset_at. destruct (get rel p) as [q|] eqn:Hg; [|apply lessen_refl].
  destruct (stored q); [|apply lessen_refl]. eapply lessen_put; eauto using lessen_unset.
Qed.

Lemma lessen_pops rels : forall p, lessen p (apply_pops rels p).
Proof.
  unfold apply_pops. induction rels as [|r rels IH]; intros p; simpl; [apply lessen_refl|].
  eapply lessen_trans; [apply lessen_unset_at|apply IH].
Qed.

Lemma lessen_ign i i' : (b_set (ig_b i') = true -> b_set (ig_b i) = true) -> lessen (PIgn i) (PIgn i').
Proof. intros H. apply lessen_node; simpl; auto; intros [] x; simpl; discriminate. Qed.

Lemma lessen_reset p : lessen p (reset p).
Proof.
  induction p as [| | | b k v ms ig ign cb IH | b st v t tm c ms ig cb IH |] using parser_ind'; cbn [reset].
  - apply lessen_node; simpl; auto; try discriminate; try (intros [] x; simpl; discriminate).
  - apply lessen_arr; simpl; auto; try discriminate.
  - apply lessen_map; simpl; auto using lessen_refl; try discriminate.
  - apply lessen_obj; simpl; try discriminate; [|apply lessen_ign; simpl; discriminate].
    clear -IH. induction IH as [|[m p] r H _ IHr]; simpl; constructor; auto.
  - apply lessen_uni; simpl; try discriminate; [|apply lessen_ign; simpl; discriminate].
    clear -IH. induction IH as [|[m p] r H _ IHr]; simpl; constructor; auto.
  - apply lessen_ign; simpl; discriminate.
Qed.

Lemma lessen_disp d p : lessen p (set_disp d p).
Proof.
  induction p as [| | | b k v ms ig ign cb IH | b st v t tm c ms ig cb IH |] using parser_ind'; cbn [set_disp].
  - apply lessen_node; simpl; auto; try discriminate; try (intros [] x; simpl; discriminate).
  - apply lessen_arr; simpl; auto using lessen_refl.
  - apply lessen_map; simpl; auto.
  - apply lessen_obj; simpl; auto; [|apply lessen_ign; simpl; auto].
    clear -IH. induction IH as [|[m p] r H _ IHr]; simpl; constructor; auto.
  - apply lessen_uni; simpl; auto; [|apply lessen_ign; simpl; auto].
    clear -IH. induction IH as [|[m p] r H _ IHr]; simpl; constructor; auto.
  - apply lessen_ign; simpl; auto.
Qed.

Lemma lessen_set_values E ms : lessen_ms ms (fst (set_values E ms)).
Proof.
  induction ms as [|[m p] r IH]; cbn [set_values]; [constructor|].
  destruct (set_values E r) as [r' [e|vs]]; cbn [fst] in *; [constructor; auto using lessen_refl|].
  destruct (is_set p).
  - destruct (pop_value p) as [[v p']|] eqn:Hp; [destruct (e_store E v)|]; cbn [fst]; constructor; auto using lessen_refl;
      eapply lessen_pop; eauto.
  - destruct (m_opt m); [destruct (m_def m) as [d|]; [destruct (e_store E d)|]|]; cbn [fst]; constructor; auto using lessen_refl.
Qed.

Lemma lessen_uni_value E cur ms : lessen_ms ms (fst (uni_set_value E cur ms)).
Proof.
  unfold uni_set_value. destruct (nth_error ms cur) as [[m p]|] eqn:Hn; cbn [fst]; [|apply lessen_ms_refl].
  destruct (is_set p).
  - destruct (pop_value p) as [[v p']|] eqn:Hp; cbn [fst]; [|apply lessen_ms_refl].
    eapply lessen_set_mem; [exact Hn|]. eapply lessen_pop; eauto.
  - destruct (m_opt m); [destruct (m_def m)|]; cbn [fst]; apply lessen_ms_refl.
Qed.

(** ** One callback [c], one parser [pi] *)
Section Pops.
Variable E : env.
Variable g : nat.
Variable pi : path.
Variable c : cbid.
Hypothesis Hc : forall l T a, In pi (co_away (e_cb E c l T a)).

(** The parser at [pi] stores values and is no union; no union below [T] is embedded. *)
Definition good (T : parser) : Prop :=
  (exists p, get pi T = Some p /\ stored p <> None /\ tm_of p = None) /\
  (forall sigma p, get sigma T = Some p -> tm_of p <> Some "").

Definition off (T : parser) : Prop := forall p, get pi T = Some p -> is_set p = false.

Lemma good_lessen T T' : lessen T T' -> good T -> good T'.
Proof.
  intros [H R] [G1 G2]. split.
  - destruct G1 as (y & Hy & K4 & K5). destruct (R _ _ Hy) as (p & Hp).
    destruct (H _ _ Hp) as (y' & Hy' & _ & K2 & K3 & _). rewrite Hy in Hy'. inversion Hy'; subst.
    exists p. split; [auto|]. split; [auto|congruence].
  - intros sigma p Hp. destruct (H _ _ Hp) as (y & Hy & _ & K2 & _). rewrite K2. eapply G2; eauto.
Qed.

Lemma off_lessen T T' : lessen T T' -> off T -> off T'.
Proof.
  intros [H _] Ho p Hp. destruct (H _ _ Hp) as (y & Hy & _ & _ & _ & K). destruct (is_set p); auto.
  rewrite (Ho y Hy) in K. symmetry. auto.
Qed.

(** Setting the parser at another place. *)
Lemma get_put_other sigma : forall T p x rho, get sigma T = Some p -> get rho (put sigma (set_set x p) T) <> None ->
  exists y z, get rho (put sigma (set_set x p) T) = Some y /\ get rho T = Some z /\
    same_kind z y /\ tm_of y = tm_of z /\ (stored y = None -> stored z = None) /\
    (rho <> sigma -> is_set y = is_set z).
Proof.
  induction sigma as [|st sigma IH]; intros T p x rho Hp Hn.
  - cbn in Hp. inversion Hp; subst. cbn [put] in *. destruct rho as [|st rho].
    + cbn. exists (set_set x p), p. repeat split; auto; try (destruct p; simpl; auto; fail). congruence.
    + cbn [get] in *. replace (child (set_set x p) st) with (child p st) in * by (destruct p; reflexivity).
      destruct (child p st) as [d|]; [|congruence]. destruct (get rho d) as [y|]; [|congruence].
      exists y, y. repeat split; auto using same_kind_refl.
  - cbn [get put] in *. destruct (child T st) as [d|] eqn:Hd; [|discriminate].
    assert (Hk : same_kind d (put sigma (set_set x p) d)) by (eapply put_kind; [exact Hp|destruct p; simpl; auto]).
    destruct rho as [|st' rho].
    + cbn [get] in *. exists (set_child T st (put sigma (set_set x p) d)), T.
      repeat split; auto; try (destruct T, st; simpl; auto; fail).
    + cbn [get] in *. destruct (step_eq_dec st st') as [<-|Hne].
      * rewrite (child_set_child_eq T st _ Hd) in * by (eapply fits_same_kind; eauto).
        rewrite Hd. destruct (IH d p x rho Hp Hn) as (y & z & K1 & K2 & K3 & K4 & K5 & K6).
        exists y, z. repeat split; auto. intros Hr. apply K6. congruence.
      * rewrite child_set_child_neq in * by auto. destruct (child T st') as [d'|]; [|congruence].
        destruct (get rho d') as [y|]; [|congruence]. exists y, y. repeat split; auto using same_kind_refl.
Qed.

Lemma get_put_back sigma : forall T p x rho z, get sigma T = Some p -> get rho T = Some z ->
  get rho (put sigma (set_set x p) T) <> None.
Proof.
  induction sigma as [|st sigma IH]; intros T p x rho z Hp Hz.
  - cbn in Hp. inversion Hp; subst. cbn [put]. destruct rho as [|st rho]; [discriminate|]. cbn [get] in *.
    replace (child (set_set x p) st) with (child p st) by (destruct p; reflexivity).
    destruct (child p st); congruence.
  - cbn [get put] in *. destruct (child T st) as [d|] eqn:Hd; [|discriminate].
    assert (Hk : same_kind d (put sigma (set_set x p) d)) by (eapply put_kind; [exact Hp|destruct p; simpl; auto]).
    destruct rho as [|st' rho]; [discriminate|]. cbn [get] in *. destruct (step_eq_dec st st') as [<-|Hne].
    + rewrite (child_set_child_eq T st _ Hd) by (eapply fits_same_kind; eauto). rewrite Hd in Hz. eapply IH; eauto.
    + rewrite child_set_child_neq by auto. destruct (child T st'); congruence.
Qed.

Lemma good_put_set sigma T p x : get sigma T = Some p -> good T -> good (put sigma (set_set x p) T).
Proof.
  intros Hp [G1 G2]. split.
  - destruct G1 as (z0 & Hz & K6 & K7).
    destruct (@get_put_other sigma T p x pi Hp) as (y & z & K1 & K2 & _ & K4 & K5 & _); [eapply get_put_back; eauto|].
    rewrite Hz in K2. inversion K2; subst. exists y. split; auto. split; [auto|congruence].
  - intros rho q Hq. destruct (@get_put_other sigma T p x rho Hp) as (y & z & K1 & K2 & _ & K4 & _); [congruence|].
    rewrite K1 in Hq. inversion Hq; subst. rewrite K4. eapply G2; eauto.
Qed.

Lemma off_put_set sigma T p x : sigma <> pi -> get sigma T = Some p -> off T -> off (put sigma (set_set x p) T).
Proof.
  intros Hn Hp Ho q Hq. destruct (@get_put_other sigma T p x pi Hp) as (y & z & K1 & K2 & _ & _ & _ & K6); [congruence|].
  rewrite K1 in Hq. inversion Hq; subst. rewrite K6; auto.
Qed.

(** What holds after a call: [good] is kept; if [c] was the last callback called, [pi] is
    unset; if [keep], [pi] unset stays unset. *)
Definition fine (keep : bool) (s : mstate) (r : res) : Prop :=
  match r with
  | ROk s' | RThrow _ s' =>
      good (m_root s') /\
      exists l, m_log s' = (m_log s ++ l)%list /\
         (forall l0 o, l = (l0 ++ [Ev c o])%list -> off (m_root s')) /\
         (keep = true -> off (m_root s) -> off (m_root s'))
  | _ => True
  end.

Lemma fine_weak k s r : fine true s r -> fine k s r.
Proof.
  destruct r as [s'|e s'|u|]; simpl; auto; intros (G & l & H1 & H2 & H3); split; auto; exists l; auto.
Qed.

Lemma fine_silent_ok k s s' : good (m_root s) -> lessen (m_root s) (m_root s') -> m_log s' = m_log s -> fine k s (ROk s').
Proof.
  intros G L Hl. split; [eapply good_lessen; eauto|]. exists []. rewrite app_nil_r. split; auto. split.
  - intros l0 o H. destruct l0; discriminate.
  - intros _. apply off_lessen; auto.
Qed.

Lemma fine_silent_throw k s s' e : good (m_root s) -> lessen (m_root s) (m_root s') -> m_log s' = m_log s -> fine k s (RThrow e s').
Proof. intros G L Hl. exact (@fine_silent_ok k s s' G L Hl). Qed.

Lemma fine_from k s s' r : lessen (m_root s) (m_root s') -> m_log s' = m_log s -> fine k s' r -> fine k s r.
Proof.
  intros L Hl. destruct r as [s1|e s1|u|]; simpl; auto; rewrite Hl; intros (G & l & H1 & H2 & H3);
    split; auto; exists l; repeat split; auto; intros Hk Ho; apply H3; auto; eapply off_lessen; eauto.
Qed.

Lemma fine_bind k s r h : fine k s r -> (forall s1, good (m_root s1) -> fine true s1 (h s1)) -> fine k s (bind r h).
Proof.
  intros Hr Hh. destruct r as [s1|e s1|u|]; simpl in *; auto.
  destruct Hr as (G & l & H1 & H2 & H3). specialize (Hh s1 G).
  assert (K : forall s2, good (m_root s2) /\
      (exists l', m_log s2 = (m_log s1 ++ l')%list /\ (forall l0 o, l' = (l0 ++ [Ev c o])%list -> off (m_root s2)) /\
         (true = true -> off (m_root s1) -> off (m_root s2))) ->
      good (m_root s2) /\
      exists l', m_log s2 = (m_log s ++ l')%list /\ (forall l0 o, l' = (l0 ++ [Ev c o])%list -> off (m_root s2)) /\
         (k = true -> off (m_root s) -> off (m_root s2))).
  { intros s2 (G2 & l' & K1 & K2 & K3). split; auto. exists (l ++ l')%list. rewrite K1, H1, app_assoc. split; auto. split; auto.
    intros l0 o Hl. destruct l' as [|ev l'] using rev_ind.
    - rewrite app_nil_r in Hl. eauto.
    - rewrite app_assoc in Hl. apply app_inj_tail in Hl. destruct Hl as [_ ->]. eauto. }
  destruct (h s1) as [s2|e s2|u|]; simpl in *; auto.
Qed.

Lemma fine_node k s sigma h : (forall p, get sigma (m_root s) = Some p -> fine k s (h p)) -> fine k s (at_node s sigma h).
Proof. intros H. unfold at_node. destruct (get sigma (m_root s)) eqn:Hg; simpl; auto. Qed.

Lemma fine_deref k s d r : fine k s r -> fine k s (deref g d r).
Proof. unfold deref. destruct d; simpl; auto. destruct (Nat.eqb _ _); simpl; auto. Qed.

Lemma off_pops rels : In pi rels -> forall T, good T -> off (apply_pops rels T).
Proof.
  induction rels as [|r rels IH]; intros Hin T G; [contradiction|]. unfold apply_pops. cbn [fold_left].
  fold (apply_pops rels (unset_at T r)).
  destruct Hin as [->|Hin].
  - apply (off_lessen (lessen_pops rels (unset_at T pi))). intros p Hp.
    unfold unset_at in Hp. destruct (get pi T) as [q|] eqn:Hq; [|congruence].
    destruct (stored q) eqn:Hs; [|exfalso; destruct G as [(q' & Hq' & G) _]; destruct G; congruence].
    rewrite (get_put_same _ _ _ Hq) in Hp by (destruct q; simpl; auto).
    inversion Hp; subst. destruct q; reflexivity.
  - apply IH; auto. eapply good_lessen; [apply lessen_unset_at|auto].
Qed.

Lemma fine_run_cb k x a eff msg s : good (m_root s) ->
  (forall o s', m_log (eff o s') = m_log s' /\ lessen (m_root s') (m_root (eff o s'))) ->
  fine k s (run_cb E x a eff msg s).
Proof.
  intros G He. unfold run_cb. destruct x as [x|]; [|apply fine_silent_ok; auto using lessen_refl].
  set (o := e_cb E x (m_log s) (m_root s) a). set (s0 := add_log s (Ev x (obs_of a))).
  destruct (He o s0) as [H1 H2].
  assert (L : lessen (m_root s) (m_root (away (co_away o) (eff o s0)))).
  { rewrite away_root. eapply lessen_trans; [exact H2|apply lessen_pops]. }
  assert (K : good (m_root (away (co_away o) (eff o s0))) /\
    exists l, m_log (away (co_away o) (eff o s0)) = (m_log s ++ l)%list /\
      (forall l0 e, l = (l0 ++ [Ev c e])%list -> off (m_root (away (co_away o) (eff o s0)))) /\
      (k = true -> off (m_root s) -> off (m_root (away (co_away o) (eff o s0))))).
  { split; [eapply good_lessen; eauto|]. exists [Ev x (obs_of a)]. split; [rewrite away_log, H1; reflexivity|]. split.
    - intros l0 e Hl. assert (x = c).
      { destruct l0 as [|? [|? ?]]; simpl in Hl; congruence. }
      subst x. rewrite away_root. apply off_pops; [apply Hc|]. eapply good_lessen; [exact H2|auto].
    - intros _. apply off_lessen; auto. }
  destruct (co_res o); exact K.
Qed.

Lemma eff_no o s' : m_log (no_eff o s') = m_log s' /\ lessen (m_root s') (m_root (no_eff o s')).
Proof. split; [reflexivity|apply lessen_refl]. Qed.

Lemma eff_pops sigma o s' : m_log (pops_eff sigma o s') = m_log s' /\ lessen (m_root s') (m_root (pops_eff sigma o s')).
Proof.
  split; [apply pops_eff_log|]. unfold pops_eff. destruct (get sigma (m_root s')) as [p|] eqn:Hg; [|apply lessen_refl].
  simpl. eapply lessen_put; [exact Hg|apply lessen_pops].
Qed.

Lemma eff_cust sigma o s' : m_log (cust_eff sigma o s') = m_log s' /\ lessen (m_root s') (m_root (cust_eff sigma o s')).
Proof.
  split; [apply cust_eff_log|]. unfold cust_eff. destruct (get sigma (m_root s')) as [p|] eqn:Hg; [|apply lessen_refl].
  destruct p; try apply lessen_refl. simpl. eapply lessen_put; [exact Hg|].
  eapply lessen_trans; [|apply lessen_pops]. apply lessen_obj; auto using lessen_ms_refl, lessen_refl.
Qed.

Lemma fine_upd_throw k s sigma p q e : good (m_root s) -> get sigma (m_root s) = Some p -> lessen p q ->
  fine k s (RThrow e (upd s sigma q)).
Proof. intros G Hg L. apply fine_silent_throw; auto. simpl. eapply lessen_put; eauto. Qed.

Lemma fine_upd_ok k s sigma p q : good (m_root s) -> get sigma (m_root s) = Some p -> lessen p q ->
  fine k s (ROk (upd s sigma q)).
Proof. intros G Hg L. apply fine_silent_ok; auto. simpl. eapply lessen_put; eauto. Qed.

Lemma fine_upd k s sigma p q r : get sigma (m_root s) = Some p -> lessen p q ->
  fine k (upd s sigma q) r -> fine k s r.
Proof. intros Hg L. apply fine_from; auto. simpl. eapply lessen_put; eauto. Qed.

Lemma good_upd s sigma p q : good (m_root s) -> get sigma (m_root s) = Some p -> lessen p q -> good (m_root (upd s sigma q)).
Proof. intros G Hg L. simpl. eapply good_lessen; [eapply lessen_put; eauto|auto]. Qed.

Lemma fine_finish k sigma s : good (m_root s) -> fine k s (finish E sigma s).
Proof.
  intros G. unfold finish. apply fine_node. intros p Hg.
  assert (R1 : forall cb a m, fine k s (run_cb E cb a no_eff m s)) by (intros; apply fine_run_cb; auto using eff_no).
  assert (R2 : forall cb a m, fine k s (run_cb E cb a (pops_eff sigma) m s)) by (intros; apply fine_run_cb; auto using eff_pops).
  assert (R3 : forall cb a m, fine k s (run_cb E cb a (cust_eff sigma) m s)) by (intros; apply fine_run_cb; auto using eff_cust).
  destruct p; cbv iota beta; auto.
  - destruct store; auto.
  - destruct (b_empty b); [eapply fine_upd_ok; eauto using lessen_unset|]. destruct k0.
    + destruct (check_members E ms); auto. eapply fine_upd_throw; eauto using lessen_unset.
    + pose proof (lessen_set_values E ms) as L. destruct (set_values E ms) as [ms' [e|vs]]; cbn [fst] in L.
      * eapply fine_upd_throw; eauto. eapply lessen_trans; [|apply lessen_unset]. apply lessen_obj; auto using lessen_refl.
      * assert (L' : lessen (PObj b OAuto v ms ig ign cb) (PObj b OAuto (VTup vs) ms' ig ign cb)) by (apply lessen_obj; auto using lessen_refl).
        eapply fine_upd; [exact Hg|exact L'|]. apply fine_run_cb; auto using eff_no. eapply good_upd; eauto.
    + destruct (check_members E ms); auto. eapply fine_upd_throw; eauto using lessen_unset.
  - destruct (b_empty b); [eapply fine_upd_ok; eauto using lessen_unset|]. destruct store.
    + pose proof (lessen_uni_value E cur ms) as L. destruct (uni_set_value E cur ms) as [ms' [e|vs]]; cbn [fst] in L.
      * eapply fine_upd_throw; eauto. eapply lessen_trans; [|apply lessen_unset]. apply lessen_uni; auto using lessen_refl.
      * set (v' := match vs with Some w => w | None => v end).
        assert (L' : lessen (PUni b true v t tm cur ms ig cb) (PUni b true v' t tm cur ms' ig cb)) by (apply lessen_uni; auto using lessen_refl).
        eapply fine_upd; [exact Hg|exact L'|]. apply fine_run_cb; auto using eff_no. eapply good_upd; eauto.
    + destruct (uni_check cur ms); auto. eapply fine_upd_throw; eauto using lessen_unset.
  - apply fine_silent_ok; auto using lessen_refl.
Qed.

Lemma fine_member k A sigma p0 p (ms : list (mspec * A)) ign nm s : good (m_root s) -> get sigma (m_root s) = Some p0 ->
  lessen p0 p -> fine k s (on_member E g sigma p ms ign nm s).
Proof.
  intros G Hg L. assert (L' : lessen p0 (set_not_empty p)) by (eapply lessen_trans; [exact L|apply lessen_ne]).
  unfold on_member. destruct (lookup nm ms); [|destruct ign; [|eapply fine_upd_throw; eauto]];
    apply fine_deref; apply fine_silent_ok; auto; simpl; eapply lessen_put; eauto.
Qed.

Definition keeps (x : call) (s : mstate) : bool :=
  match x with
  | CPop | CChild _ => true
  | CEnd sigma =>
      match get sigma (m_root s) with
      | Some p => match tm_of p with Some _ => true | None => false end
      | None => true
      end
  | _ => false
  end.

Lemma body_fine rec : (forall x s, good (m_root s) -> fine (keeps x s) s (rec x s)) ->
  forall x s, good (m_root s) -> fine (keeps x s) s (call_body E g rec x s).
Proof.
  intros IH x s G.
  assert (W : forall x s, good (m_root s) -> fine false s (rec x s)).
  { intros x0 s0 G0. specialize (IH x0 s0 G0). destruct (keeps x0 s0); auto. apply fine_weak; auto. }
  assert (WP : forall k s d, good (m_root s) -> fine k s (pop_if_disp g rec d s)).
  { intros k s0 d G0. unfold pop_if_disp. destruct d; [|apply fine_silent_ok; auto using lessen_refl].
    apply fine_deref. apply fine_weak. apply (IH CPop); auto. }
  assert (WN : forall k sigma p, get sigma (m_root s) = Some p -> fine k s (on_null g rec sigma p s)).
  { intros k sigma p Hg. unfold on_null. eapply fine_upd; [exact Hg|apply lessen_reset|].
    apply WP. eapply good_upd; eauto using lessen_reset. }
  assert (WT : forall k t, fine k s (throw_unexpected t s)) by (intros; apply fine_silent_throw; auto using lessen_refl).
  assert (WU : forall x sigma p q, get sigma (m_root s) = Some p -> lessen p q -> fine false s (rec x (upd s sigma q))).
  { intros x0 sigma p q Hg L. eapply fine_upd; [exact Hg|exact L|]. apply W. eapply good_upd; eauto. }
  assert (WR : fine false s (ROk s)) by (apply fine_silent_ok; auto using lessen_refl).
  assert (WK : forall sigma p q, get sigma (m_root s) = Some p -> lessen p q -> fine false s (ROk (upd s sigma q)))
    by (intros; eapply fine_upd_ok; eauto).
  destruct x as [|t|sigma t|sigma|sigma]; cbn [call_body].
  - unfold body_pop. destruct (m_stack s) as [|top rest]; [apply fine_silent_throw; auto using lessen_refl|].
    destruct rest as [|q rest]; [apply fine_silent_ok; auto using lessen_refl|].
    eapply fine_from with (s' := set_stack s (q :: rest)); [apply lessen_refl|reflexivity|].
    apply (IH (CChild q)); auto.
  - cbn [keeps]. unfold body_disp. destruct (m_stack s) as [|q rest]; [apply fine_silent_throw; auto using lessen_refl|].
    apply W; auto.
  - cbn [keeps]. unfold body_on. apply fine_node. intros p Hg. destruct p.
    + unfold on_val. destruct t; auto.
      destruct (takes_scalar t0 x); auto. eapply WU; [exact Hg|].
      apply lessen_node; simpl; auto; try discriminate; try (intros [] y; simpl; discriminate).
    + unfold on_arr. destruct t; auto.
      * destruct started; auto.
      * destruct started; auto. apply fine_bind; [apply W; auto|]. intros s1 G1. apply fine_node. intros p1 Hp1.
        eapply fine_upd; [exact Hp1|apply lessen_ne|]. apply (IH (CChild sigma)).
        eapply good_upd; eauto using lessen_ne.
      * destruct started; auto. unfold arr_enter.
        apply fine_deref. set (q := set_not_empty _).
        assert (L : lessen (PArr b true store vals p cb) q).
        { eapply lessen_trans; [|apply lessen_ne]. apply lessen_arr; auto using lessen_disp. }
        eapply fine_upd; [exact Hg|exact L|].
        eapply fine_from with (s' := push (upd s sigma q) (sigma ++ [Elem])%list); [apply lessen_refl|reflexivity|].
        apply W. exact (good_upd _ _ G Hg L).
      * destruct started.
        { unfold arr_enter. apply fine_deref. set (q := set_not_empty _).
          assert (L : lessen (PArr b true store vals p cb) q).
          { eapply lessen_trans; [|apply lessen_ne]. apply lessen_arr; auto using lessen_disp. }
          eapply fine_upd; [exact Hg|exact L|].
          eapply fine_from with (s' := push (upd s sigma q) (sigma ++ [Elem])%list); [apply lessen_refl|reflexivity|].
          apply W. exact (good_upd _ _ G Hg L). }
        { cbn [reset]. eapply WK; [exact Hg|]. apply lessen_arr; [simpl; discriminate|apply lessen_reset]. }
      * eapply WU; [exact Hg|]. apply lessen_arr; auto using lessen_refl.
    + unfold on_map. destruct t; auto.
      * eapply WK; [exact Hg|apply lessen_reset].
      * apply fine_deref. apply fine_silent_ok; auto. simpl. eapply lessen_put; [exact Hg|].
        apply lessen_map; auto using lessen_refl.
    + unfold on_obj. destruct t; auto.
      * eapply WK; [exact Hg|apply lessen_reset].
      * eapply fine_member; eauto using lessen_refl.
    + unfold on_uni. destruct t; auto.
      * destruct (takes_scalar t0 x); auto. apply fine_bind.
        -- eapply fine_upd; [exact Hg|apply lessen_reset|].
           eapply fine_member; [eapply good_upd; eauto using lessen_reset| |apply lessen_refl].
           simpl. eapply get_put_same; [exact Hg|]. simpl; auto.
        -- intros s1 G1. apply fine_node. intros p1 Hp1.
           destruct p1; try (apply fine_silent_ok; auto using lessen_refl).
           destruct (lookup x ms); [|apply fine_silent_ok; auto using lessen_refl].
           eapply fine_upd_ok; [auto|exact Hp1|]. apply lessen_uni; auto using lessen_refl, lessen_ms_refl.
      * destruct (String.eqb tm ""); [apply fine_silent_throw; auto using lessen_refl|].
        eapply WK; [exact Hg|apply lessen_reset].
      * destruct (String.eqb tm ""); [apply fine_silent_throw; auto using lessen_refl|].
        destruct (String.eqb k tm); [auto|apply fine_silent_throw; auto using lessen_refl].
    + unfold on_ign. destruct t; auto.
      * destruct (ig_st i); auto.
      * eapply WK; [exact Hg|apply lessen_ign; auto].
      * destruct (ig_st i) as [|[] r]; auto.
      * destruct (ig_st i) as [|[] [|? r]]; auto; [eapply WU|eapply WK]; try exact Hg; apply lessen_ign; auto.
      * eapply WK; [exact Hg|apply lessen_ign; auto].
      * destruct (ig_st i) as [|[] [|? r]]; auto; [eapply WU|eapply WK]; try exact Hg; apply lessen_ign; auto.
  - unfold body_end. cbn [keeps]. apply fine_node. intros p Hg. rewrite Hg.
    apply fine_bind.
    + assert (G' : good (m_root (upd s sigma (set_set true p)))) by (simpl; apply good_put_set; auto).
      assert (F := @fine_finish true sigma _ G').
      destruct (finish E sigma (upd s sigma (set_set true p))) as [s2|e s2|u|]; cbn [fine] in *; auto;
        destruct F as (F1 & l & F2 & F3 & F4); split; auto; exists l; split; auto; split; auto;
        intros Hk Ho; apply F4; auto; simpl; apply off_put_set; auto; intros ->; destruct G as [(p' & Hp' & _ & K) _];
        rewrite Hg in Hp'; injection Hp' as <-; rewrite K in Hk; discriminate.
    + intros s2 G2. apply fine_node. intros p2 Hp2. auto.
  - unfold body_child. cbn [keeps]. apply fine_node. intros p Hg.
    destruct p; try (apply fine_silent_ok; auto using lessen_refl).
    + destruct store; [|apply fine_silent_ok; auto using lessen_refl].
      destruct (pop_value p) as [[v e']|] eqn:Hp; [|apply fine_silent_throw; auto using lessen_refl].
      destruct (e_store E v); [eapply fine_upd_throw|eapply fine_upd_ok]; try exact Hg; auto;
        apply lessen_arr; auto; eapply lessen_pop; eauto.
    + apply fine_bind; [apply fine_run_cb; auto using eff_pops|]. intros s1 G1.
      destruct store; [|apply fine_silent_ok; auto using lessen_refl]. apply fine_node. intros p1 Hp1.
      destruct p1; try (apply fine_silent_ok; auto using lessen_refl).
      destruct (pop_value p1) as [[v e']|] eqn:Hp; [|apply fine_silent_throw; auto using lessen_refl].
      destruct (e_store E v); [eapply fine_upd_throw|eapply fine_upd_ok]; try exact Hp1; auto;
        apply lessen_map; auto; eapply lessen_pop; eauto.
    + apply fine_bind.
      * specialize (IH (CEnd sigma) s G). cbn [keeps] in IH. rewrite Hg in IH. exact IH.
      * intros s1 G1. destruct (String.eqb tm "") eqn:Ht; [|apply fine_silent_ok; auto using lessen_refl].
        exfalso. destruct G as [_ G]. apply (G sigma _ Hg). apply String.eqb_eq in Ht. subst. reflexivity.
Qed.

Lemma fine_fault x s e s' : good (m_root s) -> In s' (faults g x s) -> fine (keeps x s) s (RThrow e s').
Proof.
  intros G Hin. apply (@faults_cases g (fun s' => fine (keeps x s) s (RThrow e s')) x s s' Hin).
  - intros. apply fine_silent_throw; auto using lessen_refl.
  - intros. eapply fine_upd_throw; eauto using lessen_ne.
  - intros. eapply fine_upd_throw; eauto. eapply lessen_trans; [|apply lessen_ne]. apply lessen_arr; auto using lessen_disp.
  - intros. apply fine_silent_throw; auto. cbn [push upd m_root]. eapply lessen_put; [eassumption|apply lessen_ne].
  - intros. eapply fine_upd_throw; eauto. eapply lessen_trans; [apply lessen_reset|apply lessen_ne].
  - intros. apply fine_silent_throw; auto. cbn [push upd m_root]. eapply lessen_put; [eassumption|]. eapply lessen_trans; [apply lessen_reset|apply lessen_ne].
Qed.
End Pops.

Lemma exec_fine E g pi c (Hc : forall l T a, In pi (co_away (e_cb E c l T a))) f :
  forall x s, good pi (m_root s) -> fine pi c (keeps x s) s (exec E g f x s).
Proof.
  induction f as [|f IH]; intros x s G; [exact I|]. cbn [exec]. apply body_cases.
  - intros E' He _ _. apply body_fine; auto. intros l T a. rewrite He. apply Hc.
  - intros e s' Hin. eapply fine_fault; eauto.
Qed.

