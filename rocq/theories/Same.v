(** Two parsers of one declaration that begin the same document: whatever they have
    been through before, and whatever the document is - supported or not, complete or
    not - they go through it in lockstep. *)

From Verif Require Import Spec Model Infra Total Safe Refine Main Api ApiProofs History Unset MoveState.
Set Implicit Arguments.

(** Declarations without Ignore and without unions as elements of arrays; if [flat], the
    elements of all arrays are scalars. *)
Fixpoint regular (flat : bool) (s : schema) : bool :=
  match s with
  | SVal _ _ => true
  | SIgn => false
  | SArr _ e _ =>
      (match e with SVal _ _ => true | SUni _ _ _ _ _ | SIgn => false | _ => negb flat end) && regular flat e
  | SMp _ e _ _ => regular flat e
  | SObj _ ms _ _ | SUni _ _ _ ms _ => forallb (fun mp => regular flat (snd mp)) ms
  end.

(** Where the parser on top of the dispatcher's stack is, seen from an object: below it
    ([On]), or elsewhere.  [Fresh]: it has not been given anything yet and may be in any
    state; [Done]: it has ended.  [Off d]: not on the way to the top, but reset since the
    document began; [Wk d]: may be in any state; [d]: attached to the dispatcher. *)
Inductive stat := Fresh | Open | Done.
Inductive act := On (pi : path) (b : stat) | Off (d : bool) | Wk (d : bool).

Definition actd (x : act) : bool := match x with On _ _ => true | Off d | Wk d => d end.
Definition strong (x : act) : Prop := match x with On [] Fresh | Wk _ => False | _ => True end.
Definition opn (x : act) : Prop := match x with On [] Open | On (_ :: _) _ => True | _ => False end.

(** The same, seen from the element of an array, of a map, and from a member. *)
Definition asub (x : act) : act := match x with On (Elem :: pi) b => On pi b | _ => Off false end.
Definition msub (x : act) : act :=
  match x with On (Elem :: pi) b => On pi b | On _ _ => Wk true | Off d | Wk d => Wk d end.
Definition osub (x : act) (st : step) : act :=
  match x with
  | On (st' :: pi) b => if step_eq_dec st' st then On pi b else Off true
  | On [] _ => Off true
  | Off d | Wk d => Off d
  end.

Definition isval (e : parser) : bool := match e with PVal _ _ _ _ => true | _ => false end.
Definition vdisp (e : parser) : Prop := match e with PVal b _ _ _ => b_disp b = None | _ => True end.

Section Same.
Variable g : nat.
Variable flat : bool.
Notation regular := (regular flat).
Notation att := (att g).
Notation le_p := (le_p g).

Definition weak (d : bool) (p q : parser) : Prop :=
  schema_of p = schema_of q /\ regular (schema_of p) = true /\ rdy false p /\ rdy false q /\
  (d = true -> att p /\ att q).

Definition sb (d : bool) (b b' : base) : Prop :=
  b_set b = b_set b' /\ b_empty b = b_empty b' /\ (d = true -> b_disp b = Some g /\ b_disp b' = Some g).
Definition sbi (d : bool) (i i' : igst) : Prop := sb d (ig_b i) (ig_b i') /\ ig_st i = ig_st i'.

Inductive sim : act -> parser -> parser -> Prop :=
| s_wk d p q : weak d p q -> sim (Wk d) p q
| s_fresh p q : weak true p q -> sim (On [] Fresh) p q
| s_val x b b' t v v' cb :
    strong x -> sb (actd x) b b' -> (b_set b = true -> v = v') ->
    sim x (PVal b t v cb) (PVal b' t v' cb)
| s_arr x b b' sd st vals vals' e e' cb :
    strong x -> sb (actd x) b b' -> (sd = true -> opn x) -> (st = true -> vals = vals') ->
    regular (SArr st (schema_of e) cb) = true -> strong (asub x) ->
    match asub x with On _ _ => isval e = false | _ => vdisp e /\ vdisp e' end ->
    sim (asub x) e e' ->
    sim x (PArr b sd st vals e cb) (PArr b' sd st vals' e' cb)
| s_map x b b' st k k' vals vals' e e' ecb cb :
    strong x -> sb (actd x) b b' -> (st = true -> vals = vals') ->
    match msub x with On _ _ => k = k' | _ => True end ->
    regular (schema_of e) = true -> sim (msub x) e e' ->
    sim x (PMap b st k vals e ecb cb) (PMap b' st k' vals' e' ecb cb)
| s_obj x b b' k v v' ms ms' i i' ign cb :
    strong x -> sb (actd x) b b' -> (k <> OPlain -> v = v') -> strong (osub x Ign) ->
    sbi (actd x) i i' -> sim_ms x 0 ms ms' ->
    sim x (PObj b k v ms i ign cb) (PObj b' k v' ms' i' ign cb)
| s_uni x b b' st v v' t tm cur ms ms' i i' cb :
    strong x -> sb (actd x) b b' -> (st = true -> v = v') -> strong (osub x Ign) ->
    sbi (actd x) i i' -> sim_ms x 0 ms ms' ->
    sim x (PUni b st v t tm cur ms i cb) (PUni b' st v' t tm cur ms' i' cb)
| s_ign x i i' : strong x -> sbi (actd x) i i' -> sim x (PIgn i) (PIgn i')
with sim_ms : act -> nat -> list (mspec * parser) -> list (mspec * parser) -> Prop :=
| s_nil x n : sim_ms x n [] []
| s_cons x n m p p' r r' :
    strong (osub x (Mem n)) -> regular (schema_of p) = true -> sim (osub x (Mem n)) p p' ->
    sim_ms x (S n) r r' -> sim_ms x n ((m, p) :: r) ((m, p') :: r').

Scheme sim_ind' := Induction for sim Sort Prop
with sim_ms_ind' := Induction for sim_ms Sort Prop.
Combined Scheme sim_mut from sim_ind', sim_ms_ind'.

Lemma wk_inv d p q : sim (Wk d) p q -> weak d p q.
Proof. intros H; inversion H; subst; auto; simpl in *; tauto. Qed.

Notation scm := (map (fun mp : mspec * parser => (fst mp, schema_of (snd mp)))).

Lemma sim_schema_mut :
  (forall x p q, sim x p q -> schema_of p = schema_of q) /\
  (forall x n p q, sim_ms x n p q -> scm p = scm q).
Proof.
  apply sim_mut; simpl; intros; try congruence; match goal with H : weak _ _ _ |- _ => apply H end.
Qed.
Lemma sim_schema x p q : sim x p q -> schema_of p = schema_of q.
Proof. apply sim_schema_mut. Qed.
Lemma sim_ms_schema x n p q : sim_ms x n p q -> scm p = scm q.
Proof. apply sim_schema_mut. Qed.

Lemma sim_ms_tame x n ms ms' : sim_ms x n ms ms' -> forallb (fun mp => regular (snd mp)) (scm ms) = true.
Proof.
  induction 1; simpl; auto. rewrite H0. auto.
Qed.

Lemma sim_tame x p q : sim x p q -> (exists i, p = PIgn i) \/ regular (schema_of p) = true.
Proof.
  intros H; inversion H; subst; eauto; right; simpl;
    try (match goal with H : weak _ _ _ |- _ => apply H end); auto;
    eapply sim_ms_tame; eauto.
Qed.

(** ** What is seen of them is the same *)
Lemma sim_sb x p q : strong x -> sim x p q -> sb (actd x) (base_of p) (base_of q).
Proof.
  intros Hs H; inversion H; subst; simpl in *; try tauto. match goal with H : sbi _ _ _ |- _ => apply H end.
Qed.

Lemma sim_is_set x p q : strong x -> sim x p q -> is_set p = is_set q.
Proof. intros Hs H. apply (sim_sb Hs H). Qed.

Lemma sim_stored x p q : strong x -> sim x p q -> is_set p = true -> stored p = stored q.
Proof.
  intros Hs H; inversion H; subst; unfold is_set; simpl in *; try tauto; intros Hset.
  - f_equal. auto.
  - destruct st; auto. rewrite H3 by auto. auto.
  - destruct st; auto. rewrite H2 by auto. auto.
  - destruct k; auto; f_equal; apply H2; discriminate.
  - destruct st; auto. f_equal. auto.
Qed.

Lemma sim_value x p q : strong x -> sim x p q -> get_value p = get_value q.
Proof.
  intros Hs H. unfold get_value. rewrite <- (sim_is_set Hs H).
  destruct (is_set p) eqn:Hp; auto. eapply sim_stored; eauto.
Qed.

Lemma sim_view_mut :
  (forall x p q, sim x p q -> strong x -> view_of p = view_of q) /\
  (forall x n p q, sim_ms x n p q -> map (fun mp => view_of (snd mp)) p = map (fun mp => view_of (snd mp)) q).
Proof.
  apply sim_mut; intros; try (simpl in *; tauto);
  try match goal with
  | Hs : strong ?x |- view_of ?p = view_of ?q =>
      assert (Hx : sim x p q) by (econstructor; eauto);
      pose proof (sim_value Hs Hx) as Hv; pose proof (sim_sb Hs Hx) as (Hb1 & Hb2 & _);
      simpl in Hb1, Hb2; cbn [view_of base_of]; rewrite Hv, Hb1, Hb2; try rewrite H; auto
  end.
  simpl. rewrite H, H0; auto.
Qed.
Lemma sim_view x p q : strong x -> sim x p q -> view_of p = view_of q.
Proof. intros; eapply (proj1 sim_view_mut); eauto. Qed.

(** ** Attachment and readiness *)
Lemma actd_osub x st : actd (osub x st) = actd x.
Proof. destruct x as [[|st' pi] b|d|d]; simpl; auto. destruct (step_eq_dec st' st); auto. Qed.
Lemma actd_msub x : actd (msub x) = actd x.
Proof. destruct x as [[|[] pi] b|d|d]; simpl; auto. Qed.

Lemma sim_att_mut :
  (forall x p q, sim x p q -> actd x = true -> att p /\ att q) /\
  (forall x n p q, sim_ms x n p q -> actd x = true -> att_ms g p /\ att_ms g q).
Proof.
  apply sim_mut; intros; simpl in *; fold (att_ms g);
    repeat match goal with
    | H : weak _ _ _ |- _ => destruct H as (_ & _ & _ & _ & H)
    | H : sbi _ _ _ |- _ => destruct H as [(_ & _ & H) _]
    | H : sb _ _ _ |- _ => destruct H as (_ & _ & H)
    | H : actd (msub ?x) = true -> _ |- _ => rewrite (actd_msub x) in H
    | H : actd (osub ?x ?s) = true -> _ |- _ => rewrite (actd_osub x s) in H
    | H : actd ?x = true, H' : actd ?x = true -> _ |- _ => specialize (H' H)
    | H : ?d = true, H' : ?d = true -> _ |- _ => specialize (H' H)
    end; try tauto; auto.
Qed.
Lemma sim_att x p q : actd x = true -> sim x p q -> att p /\ att q.
Proof. intros; eapply (proj1 sim_att_mut); eauto. Qed.

Lemma sim_disp x p q : actd x = true -> sim x p q -> disp_of p = Some g /\ disp_of q = Some g.
Proof. intros Hx H. destruct (sim_att Hx H). split; apply att_disp; auto. Qed.

Lemma rdy_tame p : regular (schema_of p) = true -> rdy true p -> rdy false p.
Proof. destruct p; simpl; auto; discriminate. Qed.

Lemma sim_rdy_mut :
  (forall x p q, sim x p q -> forall d, x = Off d -> rdy true p /\ rdy true q) /\
  (forall x n p q, sim_ms x n p q -> forall d, x = Off d -> rdy_ms true p /\ rdy_ms true q).
Proof.
  apply sim_mut; intros; subst; try discriminate; simpl in *; fold (rdy_ms true); auto.
  - destruct y as [Y1 Y2]. specialize (H _ eq_refl).
    assert (sd = false) by (destruct sd; auto; destruct o; auto). subst. unfold vdisp in *. tauto.
  - match goal with K : sim (Wk _) _ _ |- _ => apply wk_inv in K; destruct K as (_ & _ & K1 & K2 & _) end. auto.
  - eauto.
  - eauto.
  - split; intros; discriminate.
  - split; split; try (eapply H; eauto); eapply H0; eauto.
Qed.

Lemma weak_off d p q : sim (Off d) p q -> regular (schema_of p) = true -> weak d p q.
Proof.
  intros H Ht. pose proof (sim_schema H) as Hs. destruct (proj1 sim_rdy_mut _ _ _ H d eq_refl) as [R1 R2].
  split; auto. split; auto. split; [apply rdy_tame; auto|]. split; [apply rdy_tame; congruence|].
  intros ->. apply (sim_att (x := Off true)); auto.
Qed.

(** ** Change of the place *)
Lemma ms_conv x y : (forall n, osub x (Mem n) = osub y (Mem n)) ->
  forall n ms ms', sim_ms x n ms ms' -> sim_ms y n ms ms'.
Proof.
  intros Hxy n ms ms' H. induction H; [constructor|]. rewrite Hxy in *. constructor; auto.
Qed.

Lemma conv x y p q :
  sim x p q -> strong x -> strong y -> actd x = actd y -> asub x = asub y -> msub x = msub y ->
  (forall st, osub x st = osub y st) -> (started p = true -> opn x -> opn y) -> sim y p q.
Proof.
  intros H Hx Hy Ed Ea Em Eo Ho. destruct H; try (simpl in Hx; tauto); rewrite Ed in *.
  - constructor; auto.
  - rewrite Ea in *. constructor; auto.
  - rewrite Em in *. constructor; auto.
  - rewrite Eo in *. constructor; auto. eapply ms_conv; [|eassumption]. auto.
  - rewrite Eo in *. constructor; auto. eapply ms_conv; [|eassumption]. auto.
  - constructor; auto.
Qed.

Definition top (x : act) : Prop := x = On [] Open \/ x = On [] Done \/ x = Off true.

Lemma sim_top x y p q : top x -> top y -> sim x p q -> (started p = true -> opn y) -> sim y p q.
Proof.
  intros Hx Hy H Ho. apply conv with x; auto;
    destruct Hx as [->|[->| ->]]; destruct Hy as [->|[->| ->]]; simpl; auto.
Qed.

Lemma sim_started x p q : sim x p q -> strong x -> started p = started q.
Proof. intros H Hx; inversion H; subst; simpl in *; auto; tauto. Qed.

Lemma closed_started x p q : sim x p q -> strong x -> ~ opn x -> started p = false.
Proof.
  intros H Hx Ho; inversion H; subst; simpl in *; auto; try tauto. destruct sd; auto. tauto.
Qed.

Lemma off_open p q : sim (Off true) p q -> sim (On [] Open) p q.
Proof. intros H. apply sim_top with (Off true); auto; unfold top; auto. simpl; auto. Qed.
Lemma off_done p q : sim (Off true) p q -> sim (On [] Done) p q.
Proof.
  intros H. apply sim_top with (Off true); auto; unfold top; auto.
  rewrite (closed_started H); simpl; auto; discriminate.
Qed.
Lemma done_off p q : sim (On [] Done) p q -> sim (Off true) p q.
Proof.
  intros H. apply sim_top with (On [] Done); auto; unfold top; auto.
  rewrite (closed_started H); simpl; auto; discriminate.
Qed.
Lemma done_open p q : sim (On [] Done) p q -> sim (On [] Open) p q.
Proof. intros H. apply off_open, done_off, H. Qed.
Lemma open_done p q : sim (On [] Open) p q -> started p = false -> sim (On [] Done) p q.
Proof. intros H Hp. apply sim_top with (On [] Open); auto; unfold top; auto. congruence. Qed.

Lemma sim_detach_mut :
  (forall x p q, sim x p q -> x = Off true -> sim (Off false) p q) /\
  (forall x n p q, sim_ms x n p q -> x = Off true -> sim_ms (Off false) n p q).
Proof.
  assert (Hb : forall d b b', sb d b b' -> sb false b b').
  { intros d b b' (H1 & H2 & H3). split; auto. split; auto. discriminate. }
  assert (Hi : forall d b b', sbi d b b' -> sbi false b b').
  { intros d b b' (H1 & H2). split; eauto. }
  apply sim_mut; intros; subst; try discriminate; simpl in *.
  - constructor; simpl; eauto.
  - constructor; simpl; eauto.
  - constructor; simpl; eauto. constructor.
    match goal with K : sim (Wk _) _ _ |- _ => apply wk_inv in K; destruct K as (K1 & K2 & K3 & K4 & _) end.
    split; [auto|split; [auto|split; [auto|split; [auto|discriminate]]]].
  - constructor; simpl; eauto.
  - constructor; simpl; eauto.
  - constructor; simpl; eauto.
  - constructor.
  - constructor; simpl; eauto.
Qed.
Lemma off_false d p q : sim (Off d) p q -> sim (Off false) p q.
Proof. destruct d; auto. intros H. eapply (proj1 sim_detach_mut); eauto. Qed.

(** ** reset() and setDispatcher() *)
Lemma weak_nth d ms ms' n m p m' p' :
  scm ms = scm ms' -> forallb (fun mp => regular (snd mp)) (scm ms) = true ->
  rdy_ms true ms -> rdy_ms true ms' -> (d = true -> att_ms g ms /\ att_ms g ms') ->
  nth_error ms n = Some (m, p) -> nth_error ms' n = Some (m', p') -> m = m' /\ weak d p p'.
Proof.
  revert ms' n. induction ms as [|[m0 p0] r IH]; intros [|[m1 p1] r'] [|n] Hs Ht R1 R2 Ha H1 H2; simpl in *; try discriminate.
  - injection H1 as -> ->. injection H2 as -> ->. injection Hs as -> E Es. apply andb_true_iff in Ht. destruct Ht as [T1 T2].
    split; auto. split; auto. split; auto. split; [apply rdy_tame; tauto|]. split; [apply rdy_tame; [congruence|tauto]|].
    intros Hd. specialize (Ha Hd). tauto.
  - injection Hs as -> E Es. apply andb_true_iff in Ht. apply (IH r' n); tauto.
Qed.

Lemma sb_reset d b b' : (d = true -> b_disp b = Some g /\ b_disp b' = Some g) -> sb d (reset_base b) (reset_base b').
Proof. intros H. split; auto. Qed.

Lemma sim_ms_intro x y (f : parser -> parser) ms : forall n ms',
  (forall k, osub x (Mem k) = y) -> strong y -> (forall p, schema_of (f p) = schema_of p) ->
  scm ms = scm ms' -> forallb (fun mp => regular (snd mp)) (scm ms) = true ->
  (forall n m p m' p', nth_error ms n = Some (m, p) -> nth_error ms' n = Some (m', p') -> sim y (f p) (f p')) ->
  sim_ms x n (map (fun mp => (fst mp, f (snd mp))) ms) (map (fun mp => (fst mp, f (snd mp))) ms').
Proof.
  induction ms as [|[m p] r IH]; intros n [|[m' p'] r'] Hx Hy Hf Hs Ht H; simpl in *; try discriminate; [constructor|].
  injection Hs as -> E Es. apply andb_true_iff in Ht. destruct Ht as [T1 T2]. constructor.
  - rewrite Hx; auto.
  - rewrite Hf; auto.
  - rewrite Hx. apply (H 0 m' p m' p'); auto.
  - apply IH; auto. intros k a b c e H1 H2. apply (H (S k) a b c e); auto.
Qed.

Lemma schema_reset p : schema_of (reset p) = schema_of p.
Proof. symmetry. apply (@le_schema g), le_reset. Qed.

Lemma dflt_same p q : schema_of p = schema_of q -> dflt p = dflt q.
Proof. intros H. rewrite !dflt_schema, H. auto. Qed.

Lemma tame_elem st e cb : regular (SArr st e cb) = true -> regular e = true.
Proof. simpl. intros H. apply andb_true_iff in H. tauto. Qed.

Lemma weak_reset p : forall d q, weak d p q -> sim (Off d) (reset p) (reset q).
Proof.
  induction p as [| ? ? ? ? ? ? IH | ? ? ? ? ? ? ? IH | b k v ms ig ign cb IH | b st v t tm cur ms ig cb IH |]
    using parser_ind'; intros d q (Hs & Ht & R1 & R2 & Ha); destruct q; try discriminate Hs.
  - simpl in Hs. injection Hs as -> ->. simpl. constructor; simpl; auto.
    + apply sb_reset. simpl in Ha. auto.
    + discriminate.
  - simpl in Hs. injection Hs as -> E ->. simpl in R1, R2. destruct R1 as (-> & R1 & V1). destruct R2 as (-> & R2 & V2).
    simpl. constructor; simpl; auto.
    + apply sb_reset. simpl in Ha. auto.
    + discriminate.
    + intros ->. auto.
    + rewrite schema_reset. exact Ht.
    + split; destruct p, q; simpl; auto.
    + pose proof (tame_elem _ _ _ Ht) as T. apply IH. split; auto. split; auto. split; [apply rdy_tame; auto|].
      split; [apply rdy_tame; [rewrite <- E; auto|auto]|discriminate].
  - simpl in Hs. injection Hs as -> E -> ->. simpl. constructor; simpl; auto.
    + apply sb_reset. simpl in Ha. intros Hd. specialize (Ha Hd). tauto.
    + intros ->. auto.
    + constructor. split; [auto|split; [auto|split; [auto|split; [auto|]]]]. simpl in Ha. intros Hd. specialize (Ha Hd). tauto.
  - simpl in Hs. injection Hs as -> E -> ->. simpl in R1, R2, Ha; fold (rdy_ms true) in R1, R2; fold (att_ms g) in Ha.
    assert (Hd : dflt (PObj b k0 v ms ig ign0 cb0) = dflt (PObj b0 k0 v0 ms0 ig0 ign0 cb0)).
    { apply dflt_same. simpl. rewrite E. auto. }
    cbn [reset]. rewrite Hd. constructor; simpl; auto.
    + apply sb_reset. intros K. specialize (Ha K). tauto.
    + destruct k0; congruence.
    + split; auto. apply sb_reset. intros K. specialize (Ha K). tauto.
    + apply sim_ms_intro with (y := Off d); simpl; auto using schema_reset.
      intros n m p m' p' H1 H2. rewrite Forall_forall in IH. apply (IH (m, p)); [eapply nth_error_In; eauto|].
      eapply weak_nth; eauto. intros K. specialize (Ha K). tauto.
  - simpl in Hs. injection Hs as -> -> -> E ->. simpl in R1, R2, Ha; fold (rdy_ms true) in R1, R2; fold (att_ms g) in Ha.
    assert (Hd : dflt (PUni b store v t0 tm0 cur ms ig cb0) = dflt (PUni b0 store v0 t0 tm0 cur0 ms0 ig0 cb0)).
    { apply dflt_same. simpl. rewrite E. auto. }
    cbn [reset]. rewrite Hd. constructor; simpl; auto.
    + apply sb_reset. intros K. specialize (Ha K). tauto.
    + destruct store; congruence.
    + split; auto. apply sb_reset. intros K. specialize (Ha K). tauto.
    + apply sim_ms_intro with (y := Off d); simpl; auto using schema_reset.
      intros n m p m' p' H1 H2. rewrite Forall_forall in IH. apply (IH (m, p)); [eapply nth_error_In; eauto|].
      eapply weak_nth; eauto. intros K. specialize (Ha K). tauto.
  - discriminate Ht.
Qed.

Lemma sim_reset p q : sim (On [] Done) p q -> sim (On [] Done) (reset p) (reset q).
Proof.
  intros H. apply off_done. apply done_off in H. destruct (sim_tame H) as [[i ->]|Ht].
  - inversion H; subst. constructor; auto.
    match goal with K0 : sbi _ _ _ |- _ => destruct K0 as [(_ & _ & K) _] end. split; [|auto]. apply sb_reset. exact K.
  - apply weak_reset. apply weak_off; auto.
Qed.

Lemma sb_attach d b b' : sb d b b' -> sb true (disp_base (Some g) b) (disp_base (Some g) b').
Proof. intros (H1 & H2 & _). split; [auto|split; [auto|]]. simpl. auto. Qed.

Lemma attach_mut :
  (forall x p q, sim x p q -> x = Off false -> sim (Off true) (set_disp (Some g) p) (set_disp (Some g) q)) /\
  (forall x n p q, sim_ms x n p q -> x = Off false ->
     sim_ms (Off true) n (map (fun mp => (fst mp, set_disp (Some g) (snd mp))) p)
                         (map (fun mp => (fst mp, set_disp (Some g) (snd mp))) q)).
Proof.
  assert (Hi : forall d i i', sbi d i i' ->
    sbi true (mkI (disp_base (Some g) (ig_b i)) (ig_st i)) (mkI (disp_base (Some g) (ig_b i')) (ig_st i'))).
  { intros d i i' [H1 H2]. split; auto. simpl. eapply sb_attach; eauto. }
  apply sim_mut; intros; subst; try discriminate; simpl in *.
  - constructor; simpl; eauto using sb_attach.
  - constructor; simpl; eauto using sb_attach.
  - constructor; simpl; eauto using sb_attach.
    + rewrite schema_set_disp; auto.
    + constructor. match goal with K : sim (Wk _) _ _ |- _ => apply wk_inv in K; destruct K as (K1 & K2 & K3 & K4 & _) end.
      split; [rewrite !schema_set_disp; auto|]. split; [rewrite schema_set_disp; auto|].
      split; [apply rdy_set_disp; auto|]. split; [apply rdy_set_disp; auto|]. intros _. split; apply att_set_disp.
  - constructor; simpl; eauto using sb_attach.
  - constructor; simpl; eauto using sb_attach.
  - constructor; simpl; eauto using sb_attach.
  - constructor.
  - constructor; simpl; eauto. rewrite schema_set_disp; auto.
Qed.
Lemma sim_attach p q : sim (Off false) p q -> sim (Off true) (set_disp (Some g) p) (set_disp (Some g) q).
Proof. intros H. eapply (proj1 attach_mut); eauto. Qed.

(** ** isSet() and isEmpty() *)
Lemma sim_with_base x p q b b' : strong x -> sim x p q -> sb (actd x) b b' ->
  (b_set b = true -> b_set (base_of p) = true \/ stored p = stored q \/ isval p = false) ->
  sim x (with_base p b) (with_base q b').
Proof.
  intros Hx H Hb Hv. inversion H; subst; try (simpl in Hx; tauto); simpl in *; try (constructor; auto; fail).
  - constructor; auto. intros K. destruct (Hv K) as [K'|[K'|K']]; auto; congruence.
  - constructor; auto. split; auto. match goal with K : sbi _ _ _ |- _ => apply K end.
Qed.

Lemma sim_unset x p q : strong x -> sim x p q -> sim x (set_set false p) (set_set false q).
Proof.
  intros Hx H. unfold set_set. apply sim_with_base; auto; [|simpl; discriminate].
  destruct (sim_sb Hx H) as (H1 & H2 & H3). split; auto.
Qed.

Lemma sim_not_empty x p q : strong x -> sim x p q -> sim x (set_not_empty p) (set_not_empty q).
Proof.
  intros Hx H. unfold set_not_empty. apply sim_with_base; auto.
  destruct (sim_sb Hx H) as (H1 & H2 & H3). split; auto.
Qed.

Lemma sim_set x p q : strong x -> sim x p q -> isval p = false -> sim x (set_set true p) (set_set true q).
Proof.
  intros Hx H Hv. unfold set_set. apply sim_with_base; auto.
  destruct (sim_sb Hx H) as (H1 & H2 & H3). split; auto.
Qed.

Lemma started_set b p : started (set_set b p) = started p.
Proof. destruct p; auto. Qed.
Lemma started_not_empty p : started (set_not_empty p) = started p.
Proof. destruct p; auto. Qed.
Lemma schema_set_set b p : schema_of (set_set b p) = schema_of p.
Proof. symmetry. apply (@le_schema g), le_set_set. Qed.
Lemma schema_not_empty p : schema_of (set_not_empty p) = schema_of p.
Proof. symmetry. apply (@le_schema g), le_set_not_empty. Qed.

(** ** Below an object *)
Definition dn (x : act) (p : parser) (st : step) : act :=
  match p with PArr _ _ _ _ _ _ => asub x | PMap _ _ _ _ _ _ _ => msub x | _ => osub x st end.

Definition adm (x : act) (p q : parser) (st : step) (c c' : parser) : Prop :=
  match p, q with
  | PArr _ _ _ _ _ _, _ =>
      strong (asub x) /\ match asub x with On _ _ => isval c = false | _ => vdisp c /\ vdisp c' end
  | PMap _ _ k _ _ _ _, PMap _ _ k' _ _ _ _ => match msub x with On _ _ => k = k' | _ => True end
  | _, _ => strong (osub x st)
  end.

Lemma ms_nth x ms ms' : forall k n m p, sim_ms x k ms ms' -> nth_error ms n = Some (m, p) ->
  exists p', nth_error ms' n = Some (m, p') /\ strong (osub x (Mem (k + n))) /\ sim (osub x (Mem (k + n))) p p' /\
    regular (schema_of p) = true.
Proof.
  intros k n m p H; revert n. induction H as [x0 k0|x k m0 p0 p0' r r' Hs Ht Hp Hr IH]; intros [|n] Hn; simpl in *; try discriminate.
  - injection Hn as -> ->. rewrite Nat.add_0_r. eauto.
  - rewrite Nat.add_succ_r. apply IH; auto.
Qed.

Lemma ms_nth_none x ms ms' k n : sim_ms x k ms ms' -> nth_error ms n = None -> nth_error ms' n = None.
Proof.
  intros H; revert n. induction H as [x0 k0|x k m0 p0 p0' r r' Hs Ht Hp Hr IH]; intros [|n]; simpl; auto; discriminate.
Qed.

Lemma ms_conv_from y x k ms ms' : (forall j, k <= j -> osub x (Mem j) = osub y (Mem j)) ->
  sim_ms x k ms ms' -> sim_ms y k ms ms'.
Proof.
  intros Hxy H. revert Hxy. induction H as [x0 k0|x j m0 p0 p0' r r' Hs0 Ht0 Hp Hr' IH]; intros Hxy; [constructor|].
  rewrite (Hxy j) in * by auto. constructor; auto. apply IH. intros i Hi. apply Hxy. lia.
Qed.

Lemma ms_set x y ms ms' : forall k n m p p1 q1, sim_ms x k ms ms' -> nth_error ms n = Some (m, p) ->
  (forall j, j <> k + n -> osub x (Mem j) = osub y (Mem j)) ->
  strong (osub y (Mem (k + n))) -> sim (osub y (Mem (k + n))) p1 q1 -> schema_of p1 = schema_of p ->
  sim_ms y k (set_mem n p1 ms) (set_mem n q1 ms').
Proof.
  intros k n m p p1 q1 H Hn Hxy Hst Hs Hsc. destruct (ms_nth n H Hn) as (p' & Hn' & _ & _ & Ht).
  unfold set_mem. rewrite Hn, Hn'. cbn [fst]. clear Ht. revert n m p p' Hn Hn' Hxy Hst Hs Hsc.
  induction H as [x0 k0|x k m0 p0 p0' r r' Hs0 Ht0 Hp Hr IH]; intros [|n] m p p' Hn Hn' Hxy Hst Hs Hsc; simpl in *; try discriminate.
  - injection Hn as -> ->. injection Hn' as ->. rewrite Nat.add_0_r in *. constructor; auto; [congruence|].
    eapply ms_conv_from; [|exact Hr]. intros j Hj. apply Hxy. lia.
  - rewrite Nat.add_succ_r in *. rewrite (Hxy k) in * by lia. constructor; auto. eapply IH; eauto.
Qed.

Lemma child_sim x p q st c : sim x p q -> strong x -> child p st = Some c ->
  exists c', child q st = Some c' /\ sim (dn x p st) c c' /\ adm x p q st c c'.
Proof.
  intros H Hx Hc. inversion H; subst; try (simpl in Hx; tauto); destruct st as [|n|]; try discriminate Hc; cbn [child] in Hc.
  - injection Hc as <-. exists e'. cbn. auto.
  - injection Hc as <-. exists e'. cbn. auto.
  - destruct (nth_error ms n) as [[m p0]|] eqn:Hn; [|discriminate]. cbn in Hc. injection Hc as <-.
    destruct (ms_nth n ltac:(eassumption) Hn) as (p' & Hn' & K1 & K2 & K3). exists p'. cbn. rewrite Hn'. auto.
  - injection Hc as <-. exists (PIgn i'). cbn. split; auto. split; auto. constructor; auto. rewrite actd_osub. auto.
  - destruct (nth_error ms n) as [[m p0]|] eqn:Hn; [|discriminate]. cbn in Hc. injection Hc as <-.
    destruct (ms_nth n ltac:(eassumption) Hn) as (p' & Hn' & K1 & K2 & K3). exists p'. cbn. rewrite Hn'. auto.
  - injection Hc as <-. exists (PIgn i'). cbn. split; auto. split; auto. constructor; auto. rewrite actd_osub. auto.
Qed.

Lemma child_none x p q st : sim x p q -> strong x -> child p st = None -> child q st = None.
Proof.
  intros H Hx Hc. inversion H; subst; try (simpl in Hx; tauto); destruct st as [|n|]; try discriminate Hc; auto; cbn [child] in *.
  - destruct (nth_error ms n) eqn:Hn; [discriminate|]. rewrite (ms_nth_none _ ltac:(eassumption) Hn). auto.
  - destruct (nth_error ms n) eqn:Hn; [discriminate|]. rewrite (ms_nth_none _ ltac:(eassumption) Hn). auto.
Qed.

Lemma set_child_sim x y p q st c c1 c1' :
  sim x p q -> strong x -> strong y -> actd x = actd y -> (opn x -> opn y) -> child p st = Some c ->
  (forall st', st' <> st -> osub x st' = osub y st') ->
  sim (dn y p st) c1 c1' -> schema_of c1 = schema_of c -> adm y p q st c1 c1' ->
  sim y (set_child p st c1) (set_child q st c1').
Proof.
  intros H Hx Hy Ed Ho Hc Hxy Hs Hsc Ha. inversion H; subst; try (simpl in Hx; tauto); rewrite Ed in *;
    destruct st as [|n|]; try discriminate Hc; cbn [child] in Hc; cbn [set_child]; cbn [dn adm] in *.
  - injection Hc as <-. destruct Ha. constructor; auto. rewrite Hsc. auto.
  - injection Hc as <-. constructor; auto. rewrite Hsc. auto.
  - destruct (nth_error ms n) as [[m p0]|] eqn:Hn; [|discriminate]. cbn in Hc. injection Hc as <-.
    constructor; auto.
    + rewrite <- Hxy by discriminate. auto.
    + eapply ms_set; eauto. intros j Hj. apply Hxy. simpl in Hj. congruence.
  - injection Hc as <-. pose proof (sim_schema Hs) as E. destruct c1; simpl in Hsc; try discriminate.
    destruct c1'; simpl in E; try discriminate. cbn [to_ig].
    constructor; auto.
    + pose proof (sim_sb Ha Hs) as K. rewrite actd_osub in K. inversion Hs; subst; try (simpl in *; tauto).
      * exfalso. match goal with K : Wk _ = _ |- _ => rewrite <- K in Ha end. exact Ha.
      * exfalso. match goal with K : On _ _ = _ |- _ => rewrite <- K in Ha end. exact Ha.
      * rewrite actd_osub in *. auto.
    + eapply ms_conv; [|eassumption]. intros j. apply Hxy. discriminate.
  - destruct (nth_error ms n) as [[m p0]|] eqn:Hn; [|discriminate]. cbn in Hc. injection Hc as <-.
    constructor; auto.
    + rewrite <- Hxy by discriminate. auto.
    + eapply ms_set; eauto. intros j Hj. apply Hxy. simpl in Hj. congruence.
  - injection Hc as <-. pose proof (sim_schema Hs) as E. destruct c1; simpl in Hsc; try discriminate.
    destruct c1'; simpl in E; try discriminate. cbn [to_ig].
    constructor; auto.
    + pose proof (sim_sb Ha Hs) as K. rewrite actd_osub in K. inversion Hs; subst; try (simpl in *; tauto).
      * exfalso. match goal with K : Wk _ = _ |- _ => rewrite <- K in Ha end. exact Ha.
      * exfalso. match goal with K : On _ _ = _ |- _ => rewrite <- K in Ha end. exact Ha.
      * rewrite actd_osub in *. auto.
    + eapply ms_conv; [|eassumption]. intros j. apply Hxy. discriminate.
Qed.

(** ** pop() by the program *)
Lemma stored_none p q : schema_of p = schema_of q -> (stored p = None <-> stored q = None).
Proof.
  destruct p, q; simpl; intros H; try discriminate H; try (split; congruence).
  - injection H as -> _ _. destruct store0; split; congruence.
  - injection H as -> _ _. destruct store0; split; congruence.
  - injection H as -> _ _. destruct k0; split; congruence.
  - injection H as -> _ _. destruct store0; split; congruence.
Qed.

Lemma schema_unset p rel : schema_of (unset_at p rel) = schema_of p.
Proof. symmetry. apply (@le_schema g), le_unset_at. Qed.

Lemma vdisp_unset_at c rel : vdisp c -> vdisp (unset_at c rel).
Proof. apply vdisp_unset. Qed.

Lemma isval_schema p q : schema_of p = schema_of q -> isval p = isval q.
Proof. destruct p, q; simpl; intros; auto; discriminate. Qed.

Lemma adm_same x p q st c c' c1 c1' : adm x p q st c c' -> schema_of c1 = schema_of c ->
  (vdisp c -> vdisp c1) -> (vdisp c' -> vdisp c1') -> adm x p q st c1 c1'.
Proof.
  intros H Hs H1 H2. destruct p; simpl in *; auto. destruct H as [Ha H]. split; auto.
  rewrite (isval_schema _ _ Hs). destruct (asub x); tauto.
Qed.

Lemma unset_at_sim rel : forall x p q, sim x p q -> sim x (unset_at p rel) (unset_at q rel).
Proof.
  induction rel as [|st rel IH]; intros x p q H.
  - assert (Hw : forall d, weak d p q -> weak d (unset_at p []) (unset_at q [])).
    { intros d (H1 & H2 & H3 & H4 & H5). split; [rewrite !schema_unset; auto|]. split; [rewrite schema_unset; auto|].
      split; [apply rdy_unset_any; auto|]. split; [apply rdy_unset_any; auto|].
      intros Hd. destruct (H5 Hd) as [K1 K2]. split; [eapply le_att; [|exact K1]|eapply le_att; [|exact K2]]; apply le_unset_at. }
    assert (Hx : strong x \/ ~ strong x) by (destruct x as [[|] []| |]; simpl; tauto).
    destruct Hx as [Hx|Hx].
    + unfold unset_at. cbn [get put]. destruct (stored_none p q (sim_schema H)) as [N1 N2].
      destruct (stored p), (stored q); try (discriminate (N1 eq_refl)); try (discriminate (N2 eq_refl)); auto.
      apply sim_unset; auto.
    + destruct H; try tauto; constructor; auto.
  - assert (Hw : forall d, weak d p q -> weak d (unset_at p (st :: rel)) (unset_at q (st :: rel))).
    { intros d (H1 & H2 & H3 & H4 & H5). split; [rewrite !schema_unset; auto|]. split; [rewrite schema_unset; auto|].
      split; [apply rdy_unset_any; auto|]. split; [apply rdy_unset_any; auto|].
      intros Hd. destruct (H5 Hd) as [K1 K2]. split; [eapply le_att; [|exact K1]|eapply le_att; [|exact K2]]; apply le_unset_at. }
    assert (Hx : strong x \/ ~ strong x) by (destruct x as [[|] []| |]; simpl; tauto).
    destruct Hx as [Hx|Hx]; [|destruct H; try tauto; constructor; auto].
    destruct (child p st) as [c|] eqn:Hc.
    + destruct (child_sim st H Hx Hc) as (c' & Hc' & Hs & Ha).
      rewrite (unset_at_cons p st rel Hc), (unset_at_cons q st rel Hc').
      apply set_child_sim with (x := x) (c := c); auto.
      * apply schema_unset.
      * eapply adm_same; eauto using vdisp_unset_at, schema_unset.
    + rewrite (unset_at_none p st rel Hc), (unset_at_none q st rel (child_none st H Hx Hc)). auto.
Qed.

Lemma pops_sim rels : forall x p q, sim x p q -> sim x (apply_pops rels p) (apply_pops rels q).
Proof.
  induction rels as [|r rels IH]; intros x p q H; simpl; auto using unset_at_sim.
Qed.
Lemma schema_pops rels p : schema_of (apply_pops rels p) = schema_of p.
Proof. symmetry. apply (@le_schema g), le_apply_pops. Qed.
Lemma started_unset p rel : started (unset_at p rel) = started p.
Proof.
  destruct rel as [|st rel]; unfold unset_at; simpl.
  - destruct (stored p); auto using started_set.
  - destruct (child p st) as [c|] eqn:Hc; auto. destruct (get rel c) as [q|] eqn:Hq; auto. destruct (stored q); auto.
    destruct p, st; auto.
Qed.

(** ** Paths *)
Lemma dn_on p st pi b c : child p st = Some c -> dn (On (st :: pi) b) p st = On pi b.
Proof.
  destruct p, st; simpl; try discriminate; auto; intros _;
    match goal with |- context [step_eq_dec ?a ?b] => destruct (step_eq_dec a b); tauto end.
Qed.

Lemma get_sim pi : forall rho b T T' p, sim (On (pi ++ rho) b) T T' -> get pi T = Some p ->
  exists q, get pi T' = Some q /\ sim (On rho b) p q.
Proof.
  induction pi as [|st pi IH]; intros rho b T T' p H Hg; simpl in *.
  - injection Hg as ->. eauto.
  - destruct (child T st) as [c|] eqn:Hc; [|discriminate].
    destruct (child_sim st H I Hc) as (c' & Hc' & Hs & _). rewrite (dn_on T st _ _ Hc) in Hs. rewrite Hc'. eauto.
Qed.

Lemma get_none_schema pi : forall p q, schema_of p = schema_of q -> get pi p = None -> get pi q = None.
Proof.
  assert (Hm : forall (ms ms' : list (mspec * parser)) n, scm ms = scm ms' ->
    match nth_error ms n, nth_error ms' n with
    | Some a, Some b => schema_of (snd a) = schema_of (snd b)
    | None, None => True
    | _, _ => False
    end).
  { induction ms as [|[m p] r IH]; intros [|[m' p'] r'] [|n] H; simpl in *; try discriminate; auto; injection H as E1 E2 E3; auto.
    apply IH; auto. }
  assert (Hc : forall p q st, schema_of p = schema_of q ->
    match child p st, child q st with
    | Some a, Some b => schema_of a = schema_of b
    | None, None => True
    | _, _ => False
    end).
  { intros p q st H. destruct p, q; simpl in H; try discriminate H; destruct st as [|n|]; simpl; auto; try congruence.
    - injection H as _ H _ _. specialize (Hm ms ms0 n H). destruct (nth_error ms n), (nth_error ms0 n); simpl; auto.
    - injection H as _ _ _ H _. specialize (Hm ms ms0 n H). destruct (nth_error ms n), (nth_error ms0 n); simpl; auto. }
  induction pi as [|st pi IH]; intros p q H Hg; simpl in *; [discriminate|].
  specialize (Hc p q st H). destruct (child p st), (child q st); try tauto; eauto.
Qed.

Lemma get_sim_none pi x T T' : sim x T T' -> get pi T = None -> get pi T' = None.
Proof. intros H. apply get_none_schema. eapply sim_schema; eauto. Qed.

Lemma put_schema pi : forall T p p1, get pi T = Some p -> schema_of p1 = schema_of p -> schema_of (put pi p1 T) = schema_of T.
Proof.
  assert (Hm : forall n p1 (ms : list (mspec * parser)) mp, nth_error ms n = Some mp -> schema_of p1 = schema_of (snd mp) ->
    scm (set_mem n p1 ms) = scm ms).
  { intros n p1 ms mp Hn Hs. unfold set_mem. rewrite Hn. rewrite map_set_nth. simpl. apply set_nth_same.
    rewrite (map_nth_error _ _ _ Hn). rewrite Hs. auto. }
  induction pi as [|st pi IH]; intros T p p1 Hg Hs; simpl in *; [congruence|].
  destruct (child T st) as [c|] eqn:Hc; [|discriminate]. specialize (IH c p p1 Hg Hs).
  destruct T, st; simpl in *; try discriminate Hc; auto; try congruence.
  - destruct (nth_error ms n) as [mp|] eqn:Hn; [|discriminate]. injection Hc as <-. erewrite Hm; eauto.
  - destruct (nth_error ms n) as [mp|] eqn:Hn; [|discriminate]. injection Hc as <-. erewrite Hm; eauto.
Qed.

Lemma put_sim pi : forall rho0 b0 rho b T T' p q p1 q1,
  sim (On (pi ++ rho0) b0) T T' -> get pi T = Some p -> get pi T' = Some q ->
  sim (On rho b) p1 q1 -> schema_of p1 = schema_of p ->
  (rho = [] -> b = Fresh -> rho0 = [] /\ b0 = Fresh) ->
  sim (On (pi ++ rho) b) (put pi p1 T) (put pi q1 T').
Proof.
  induction pi as [|st pi IH]; intros rho0 b0 rho b T T' p q p1 q1 H Hg Hg' Hs Hsc Hf; simpl in *; auto.
  destruct (child T st) as [c|] eqn:Hc; [|discriminate].
  destruct (child T' st) as [c'|] eqn:Hc'; [|discriminate].
  destruct (child_sim st H I Hc) as (c2 & Hc2 & Hs2 & Ha). rewrite Hc' in Hc2. injection Hc2 as <-.
  rewrite (dn_on T st _ _ Hc) in Hs2.
  assert (Hp : schema_of (put pi p1 c) = schema_of c) by (eapply put_schema; eauto).
  apply set_child_sim with (x := On (st :: (pi ++ rho0)) b0) (c := c); auto; try exact I.
  - intros st' Hn. simpl. destruct (step_eq_dec st st'); congruence.
  - rewrite (dn_on T st _ _ Hc). eapply IH; eauto.
  - assert (Hst : strong (On (pi ++ rho0) b0) -> strong (On (pi ++ rho) b)).
    { destruct pi; simpl; auto. destruct rho; simpl; auto. destruct b; auto. destruct (Hf eq_refl eq_refl) as [-> ->]. auto. }
    destruct T, T'; try discriminate (sim_schema H); destruct st; try discriminate Hc; cbn [adm asub msub osub] in *; auto;
      try (rewrite (isval_schema _ _ Hp); tauto);
      match goal with |- context [step_eq_dec ?a ?b] => destruct (step_eq_dec a b); tauto end.
Qed.

(** A child has ended. *)
Lemma ms_up st n ms ms' : sim_ms (On [st] Done) n ms ms' -> sim_ms (On [] Open) n ms ms'.
Proof.
  intros H. remember (On [st] Done) as x eqn:Ex. induction H as [x0 k0|x j m0 p0 p0' r r' Hs0 Ht0 Hp Hr' IH]; [constructor|]. subst x.
  constructor; simpl; auto. simpl in Hp. destruct (step_eq_dec st (Mem j)); auto. apply done_off; auto.
Qed.

Lemma up1 st p q : sim (On [st] Done) p q -> sim (On [] Open) p q.
Proof.
  intros H. inversion H; subst; try (constructor; auto; fail).
  - constructor; simpl; auto.
    + cbn [asub] in *. destruct st; auto. match goal with K : sim _ e e' |- _ => pose proof (sim_schema K) as Es end.
      destruct e, e'; simpl in *; try discriminate; auto.
    + cbn [asub] in *. destruct st; auto. apply off_false with true. apply done_off; auto.
  - constructor; simpl; auto. cbn [msub] in *. destruct st; auto. constructor. apply weak_off; auto. apply done_off; auto.
  - constructor; simpl; auto. eapply ms_up; eauto.
  - constructor; simpl; auto. eapply ms_up; eauto.
Qed.

Lemma get_app_some pi st (T c : parser) : get (pi ++ [st]) T = Some c -> exists p, get pi T = Some p /\ child p st = Some c.
Proof.
  rewrite get_app. destruct (get pi T) as [p|]; [|discriminate]. simpl. destruct (child p st) eqn:Hc; [|discriminate].
  intros H. injection H as <-. eauto.
Qed.

Lemma up_sim pi st T T' p : sim (On (pi ++ [st]) Done) T T' -> get pi T = Some p -> sim (On pi Open) T T'.
Proof.
  intros H Hg. destruct (get_sim _ _ H Hg) as (q & Hg' & Hs). apply up1 in Hs.
  pose proof (put_sim _ H Hg Hg' Hs eq_refl) as K. rewrite (put_same _ _ Hg), (put_same _ _ Hg'), app_nil_r in K.
  apply K. discriminate.
Qed.

(** A member, or an ignored one, is entered. *)
Lemma ms_push st n ms ms' : sim_ms (On [] Open) n ms ms' -> sim_ms (On [st] Open) n ms ms'.
Proof.
  intros H. remember (On [] Open) as x eqn:Ex. induction H as [x0 k0|x j m0 p0 p0' r r' Hs0 Ht0 Hp Hr' IH]; [constructor|]. subst x.
  simpl in Hp. constructor; simpl; auto; destruct (step_eq_dec st (Mem j)); simpl; auto. apply off_open; auto.
Qed.

Lemma push1 st p q : sim (On [] Open) p q ->
  match p with PObj _ _ _ _ _ _ _ | PUni _ _ _ _ _ _ _ _ _ => True | _ => False end -> sim (On [st] Open) p q.
Proof.
  intros H Hp. inversion H; subst; simpl in Hp; try tauto; constructor; simpl; auto.
  - destruct (step_eq_dec st Ign); simpl; auto.
  - apply ms_push; auto.
  - destruct (step_eq_dec st Ign); simpl; auto.
  - apply ms_push; auto.
Qed.

(** ** Heights and names *)
Lemma height_schema p : forall q, schema_of p = schema_of q -> height p = height q.
Proof.
  induction p as [| ? ? ? ? ? ? IH | ? ? ? ? ? ? ? IH | b k v ms ig ign cb IH | b st v t tm cur ms ig cb IH |]
    using parser_ind'; intros q H; destruct q; try discriminate H; cbn [height]; auto.
  - simpl in H. injection H as -> E ->. f_equal. auto.
  - simpl in H. injection H as -> E -> ->. f_equal. auto.
  - simpl in H. injection H as -> E -> ->. do 3 f_equal. clear - IH E. revert ms0 E.
    induction IH as [|[m p] r Hp Hr IHr]; intros [|[m' p'] r'] E; simpl in *; try discriminate E; auto.
    injection E as -> E1 E2. f_equal; auto.
  - simpl in H. injection H as -> -> -> E ->. do 3 f_equal. clear - IH E. revert ms0 E.
    induction IH as [|[m p] r Hp Hr IHr]; intros [|[m' p'] r'] E; simpl in *; try discriminate E; auto.
    injection E as -> E1 E2. f_equal; auto.
Qed.

Lemma lookup_schema nm (ms : list (mspec * parser)) : forall ms', scm ms = scm ms' -> lookup nm ms = lookup nm ms'.
Proof.
  induction ms as [|[m p] r IH]; intros [|[m' p'] r'] H; simpl in *; try discriminate H; auto.
  injection H as -> E1 E2. rewrite (IH _ E2). auto.
Qed.

(** ** What is seen when one parser is replaced *)
Lemma view_set_child p st c1 c2 : view_of c1 = view_of c2 -> view_of (set_child p st c1) = view_of (set_child p st c2).
Proof.
  intros H. destruct p, st; auto; cbn [set_child].
  - unfold set_mem. destruct (nth_error ms n); auto. cbn [view_of base_of]. rewrite !map_set_nth. cbn [snd]. rewrite H. auto.
  - unfold set_mem. destruct (nth_error ms n); auto. cbn [view_of base_of]. rewrite !map_set_nth. cbn [snd]. rewrite H. auto.
Qed.

Lemma view_put pi : forall T p1 p2, view_of p1 = view_of p2 -> view_of (put pi p1 T) = view_of (put pi p2 T).
Proof.
  induction pi as [|st pi IH]; intros T p1 p2 H; simpl; auto. destruct (child T st); auto. apply view_set_child. auto.
Qed.

End Same.
