(** The member getters of the object and union parsers, and the constructor's
    check for duplicate names. *)

From Verif Require Import Spec Model Infra Total Safe Refine Main.
Local Open Scope string_scope.
Set Implicit Arguments.

(** ** get<n>() and pop<n>()

    Citations: /repo/library/sjparser/internals/key_value_parser.h. *)

(** _member_parsers.get<n>(): internals/key_value_parser.h:371-380. *)
Definition member_at (n : nat) (p : parser) : option (mspec * parser) :=
  match p with
  | PObj _ _ _ ms _ _ _ | PUni _ _ _ _ _ _ ms _ _ => nth_error ms n
  | _ => None
  end.

(** Result of a getter: a value, a reference to a parser (members without
    ValueType), std::runtime_error, a call that does not compile. *)
Inductive got :=
| GVal (v : value)
| GParser (p : parser)
| GThrow (m : string)
| GIllFormed.

(** get<n>(): internals/key_value_parser.h:251-267. *)
Definition get_nth (n : nat) (p : parser) : got :=
  match member_at n p with
  | None => GIllFormed
  | Some (m, q) =>
      match stored q with
      | None => GParser q
      | Some _ =>
          match is_set q, m_def m with
          | false, Some d => GVal d
          | _, _ => match get_value q with Some v => GVal v | None => GThrow e_unset end
          end
      end
  end.

(** pop<n>(): internals/key_value_parser.h:277-294; the new state of the object.
    (It has no value-returning form for members without ValueType.) *)
Definition pop_nth (n : nat) (p : parser) : got * parser :=
  match member_at n p with
  | None => (GIllFormed, p)
  | Some (m, q) =>
      match stored q with
      | None => (GIllFormed, p)
      | Some _ =>
          match is_set q, m_def m with
          | false, Some d => (GVal d, p)
          | _, _ =>
              match pop_value q with
              | Some (v, q') => (GVal v, set_child p (Mem n) q')
              | None => (GThrow e_unset, p)
              end
          end
      end
  end.

Lemma stored_set_set b q : stored (set_set b q) = stored q.
Proof. destruct q as [? ? ? ?|? ? [] ? ? ?|? [] ? ? ? ? ?|? [] ? ? ? ? ?|? [] ? ? ? ? ? ? ?|?]; auto. Qed.

Lemma member_at_set p n q m q' : member_at n p = Some (m, q) ->
  member_at n (set_child p (Mem n) q') = Some (m, q').
Proof.
  destruct p as [| | |b k v ms ig ign cb|b st v t tm cur ms ig cb|]; simpl; try discriminate;
  intros H; unfold set_mem; rewrite H; simpl; clear -H; revert n H;
  (induction ms as [|x ms IH]; intros [|n] H; try discriminate; simpl in *; [inversion H; auto|auto]).
Qed.

(** A set member: get<n>() and pop<n>() give its value; pop<n>() unsets it. *)
Lemma get_nth_set n p m q v : member_at n p = Some (m, q) -> stored q = Some v -> is_set q = true ->
  get_nth n p = GVal v /\ pop_nth n p = (GVal v, set_child p (Mem n) (set_set false q)).
Proof.
  intros Hm Hs Hq. unfold get_nth, pop_nth, pop_value, get_value. rewrite Hm, Hs, Hq.
  destruct (m_def m); auto.
Qed.

(** An unset member with a default value. *)
Lemma get_nth_default n p m q v d : member_at n p = Some (m, q) -> stored q = Some v -> is_set q = false ->
  m_def m = Some d -> get_nth n p = GVal d /\ pop_nth n p = (GVal d, p).
Proof. intros Hm Hs Hq Hd. unfold get_nth, pop_nth. rewrite Hm, Hs, Hq, Hd. auto. Qed.

(** An unset member without one. *)
Lemma get_nth_unset n p m q v : member_at n p = Some (m, q) -> stored q = Some v -> is_set q = false ->
  m_def m = None -> get_nth n p = GThrow msg_unset /\ pop_nth n p = (GThrow msg_unset, p).
Proof.
  intros Hm Hs Hq Hd. unfold get_nth, pop_nth, pop_value, get_value. rewrite Hm, Hs, Hq, Hd. auto.
Qed.

(** What get<n>() gives, from the view of the object. *)
Definition view_get (m : mspec) (w : view) : got :=
  if v_set w then match v_val w with Some v => GVal v | None => GThrow msg_unset end
  else match m_def m with Some d => GVal d | None => GThrow msg_unset end.

Lemma get_nth_view n p m q v : member_at n p = Some (m, q) -> stored q = Some v ->
  exists w, nth_error (v_kids (view_of p)) n = Some w /\ get_nth n p = view_get m w.
Proof.
  intros Hm Hs. exists (view_of q). split.
  - destruct p as [| | |b k w ms ig ign cb|b st w t tm cur ms ig cb|]; simpl in *; try discriminate;
    rewrite nth_error_map, Hm; auto.
  - unfold get_nth, view_get. rewrite Hm, Hs, view_set, view_val. unfold get_value.
    destruct (is_set q) eqn:Q; simpl; [rewrite Hs; destruct (m_def m); auto|destruct (m_def m); auto].
Qed.

(** ** get() and pop() of the storing parsers *)

Lemma get_iff_set p : stored p <> None -> (get_value p <> None <-> is_set p = true).
Proof. unfold get_value. destruct (is_set p); split; auto; congruence. Qed.

Lemma pop_spec p : stored p <> None ->
  (is_set p = true ->
     exists v p', stored p = Some v /\ get_value p = Some v /\ pop_value p = Some (v, p') /\
       is_set p' = false /\ get_value p' = None /\ pop_value p' = None /\
       is_empty p' = is_empty p /\ v_kids (view_of p') = v_kids (view_of p) /\ schema_of p' = schema_of p) /\
  (is_set p = false -> get_value p = None /\ pop_value p = None).
Proof.
  intros Hs. split.
  - intros H. destruct (stored p) as [v|] eqn:Q; [|congruence].
    exists v, (set_set false p). unfold pop_value, get_value. rewrite H, Q. 
    assert (Hu : is_set (set_set false p) = false) by (destruct p; auto).
    rewrite Hu. repeat match goal with |- _ /\ _ => split end; auto; destruct p; auto.
  - intros H. unfold pop_value, get_value. rewrite H. auto.
Qed.

(** ** Duplicate names *)

(** Member [i]'s name occurs again after it. *)
Definition repeated {A} (ms : list (mspec * A)) (i : nat) : Prop :=
  exists j mi mj, i < j /\ nth_error ms i = Some mi /\ nth_error ms j = Some mj /\
    same_name (m_name (fst mj)) (m_name (fst mi)).

Lemma existsb_nth A (f : A -> bool) l : existsb f l = true <-> exists i x, nth_error l i = Some x /\ f x = true.
Proof.
  rewrite existsb_exists. split.
  - intros (x & Hin & Hx). apply In_nth_error in Hin as (i & Hi). eauto.
  - intros (i & x & Hi & Hx). exists x. split; auto. eapply nth_error_In; eauto.
Qed.

Lemma dup_none A fmtd (ms : list (mspec * A)) : dup_check fmtd ms = None <-> forall i, ~ repeated ms i.
Proof.
  induction ms as [|[m a] ms IH]; simpl.
  - split; auto. intros _ i (j & mi & mj & _ & H & _). destruct i; discriminate.
  - destruct (dup_check fmtd ms) as [e|].
    + split; [discriminate|]. intros H. exfalso. 
      assert (X : (@Some exn e) = None); [|discriminate].
      apply IH. intros i (j & mi & mj & Hij & H1 & H2 & H3).
      apply (H (S i)). exists (S j), mi, mj. repeat split; auto. lia.
    + destruct (existsb _ ms) eqn:X; split; try discriminate; auto.
      * intros H. exfalso. apply existsb_nth in X as (j & mj & Hj & Hx).
        apply (H 0). exists (S j), (m, a), mj. repeat split; auto; [lia|]. apply same_name_iff. exact Hx.
      * intros _ i (j & mi & mj & Hij & H1 & H2 & H3). destruct j as [|j]; [lia|]. simpl in H2.
        destruct i as [|i].
        -- simpl in H1. inversion H1; subst. simpl in H3.
           assert (existsb (fun mp : mspec * A => name_eqb (m_name (fst mp)) (m_name m)) ms = true)
             by (apply existsb_nth; exists j, mj; split; auto; apply same_name_iff in H3; exact H3). congruence.
        -- simpl in H1. apply (proj1 IH eq_refl i). exists j, mi, mj. repeat split; auto. lia.
Qed.

Lemma dup_some A fmtd (ms : list (mspec * A)) e : dup_check fmtd ms = Some e ->
  exists i mi, nth_error ms i = Some mi /\ repeated ms i /\ (forall i', i < i' -> ~ repeated ms i') /\
    e = XStd ("Member " ++ fmt_scalar fmtd (m_name (fst mi)) ++ " appears more, than once").
Proof.
  induction ms as [|[m a] ms IH]; simpl; [discriminate|].
  destruct (dup_check fmtd ms) as [e'|] eqn:D.
  - intros X. inversion X; subst. destruct (IH eq_refl) as (i & mi & H1 & H2 & H3 & H4).
    exists (S i), mi. split; [auto|]. split; [|split; auto].
    + destruct H2 as (j & a1 & a2 & ? & ? & ? & ?). exists (S j), a1, a2. repeat split; auto. lia.
    + intros [|i'] Hi; [lia|]. intros (j & a1 & a2 & ? & Ha & Hb & ?).
      destruct j as [|j]; [lia|]. simpl in Ha, Hb. apply (H3 i'); [lia|].
      exists j, a1, a2. repeat split; auto. lia.
  - destruct (existsb _ ms) eqn:X; [|discriminate]. intros Y. inversion Y; subst.
    exists 0, (m, a). split; [auto|]. split; [|split; auto].
    + apply existsb_nth in X as (j & mj & Hj & Hx). exists (S j), (m, a), mj. repeat split; auto; [lia|].
      apply same_name_iff. exact Hx.
    + intros [|i'] Hi; [lia|]. intros (j & a1 & a2 & ? & Ha & Hb & ?).
      destruct j as [|j]; [lia|]. simpl in Ha, Hb.
      apply (proj1 (dup_none fmtd ms) D i'). exists j, a1, a2. repeat split; auto. lia.
Qed.

(** *** Whole declarations *)

(** The declared members of an object or union. *)
Definition members_of (s : schema) : option (list (mspec * schema)) :=
  match s with SObj _ ms _ _ | SUni _ _ _ ms _ => Some ms | _ => None end.

(** [part c s]: [c] is [s] or a declaration inside [s]. *)
Inductive part (c : schema) : schema -> Prop :=
| part_self : part c c
| part_arr st e cb : part c e -> part c (SArr st e cb)
| part_map st e ecb cb : part c e -> part c (SMp st e ecb cb)
| part_mem s ms mp : members_of s = Some ms -> In mp ms -> part c (snd mp) -> part c s.

Lemma part_arr_inv c st e cb : part c (SArr st e cb) -> c = SArr st e cb \/ part c e.
Proof. intros H. inversion H; subst; auto. discriminate. Qed.
Lemma part_map_inv c st e ecb cb : part c (SMp st e ecb cb) -> c = SMp st e ecb cb \/ part c e.
Proof. intros H. inversion H; subst; auto. discriminate. Qed.
Lemma part_mem_inv c s ms : members_of s = Some ms -> part c s ->
  c = s \/ exists mp, In mp ms /\ part c (snd mp).
Proof.
  intros Hm H. inversion H as [|? ? ? ?|? ? ? ? ?|? ms' mp Hm' Hi Hp]; subst; auto; try discriminate.
  rewrite Hm in Hm'. inversion Hm'; subst. eauto.
Qed.

Fixpoint first_exn (fmtd : SpecFloat.spec_float -> string) (ms : list (mspec * schema)) : option exn :=
  match ms with
  | [] => None
  | (_, c) :: r => match ctor_exn fmtd c with Some e => Some e | None => first_exn fmtd r end
  end.

Lemma ctor_exn_members fmtd s ms : members_of s = Some ms ->
  ctor_exn fmtd s = match first_exn fmtd ms with Some e => Some e | None => dup_check fmtd ms end.
Proof.
  assert (X : (fix first (ms : list (mspec * schema)) : option exn :=
    match ms with
    | [] => None
    | (_, c) :: r => match ctor_exn fmtd c with Some e => Some e | None => first r end
    end) ms = first_exn fmtd ms).
  { clear. induction ms as [|[m c] ms IH]; [auto|]. cbn [first_exn]. rewrite <- IH. reflexivity. }
  destruct s; cbn [members_of]; intros H; inversion H; subst; cbn [ctor_exn]; rewrite X; reflexivity.
Qed.

Lemma first_exn_none fmtd ms : first_exn fmtd ms = None <-> Forall (fun mp => ctor_exn fmtd (snd mp) = None) ms.
Proof.
  induction ms as [|[m c] ms IH]; simpl; [split; auto|].
  destruct (ctor_exn fmtd c) eqn:Q.
  - split; [discriminate|]. intros H. inversion H; subst. simpl in *. congruence.
  - rewrite IH. split; intros H; [constructor; auto|inversion H; auto].
Qed.

Lemma first_exn_some fmtd ms e : first_exn fmtd ms = Some e ->
  exists mp, In mp ms /\ ctor_exn fmtd (snd mp) = Some e.
Proof.
  induction ms as [|[m c] ms IH]; simpl; [discriminate|]. destruct (ctor_exn fmtd c) eqn:Q; intros H.
  - inversion H; subst. exists (m, c). auto.
  - destruct (IH H) as (mp & ? & ?). exists mp. auto.
Qed.

Lemma ctor_none fmtd s : ctor_exn fmtd s = None <->
  forall c ms i, part c s -> members_of c = Some ms -> ~ repeated ms i.
Proof.
  assert (Hmem : forall s ms, members_of s = Some ms ->
    Forall (fun mp => ctor_exn fmtd (snd mp) = None <->
              forall c ms i, part c (snd mp) -> members_of c = Some ms -> ~ repeated ms i) ms ->
    (ctor_exn fmtd s = None <-> forall c ms i, part c s -> members_of c = Some ms -> ~ repeated ms i)).
  { clear s. intros s ms Hm HF. rewrite (ctor_exn_members _ _ Hm). rewrite Forall_forall in HF. split.
    - destruct (first_exn fmtd ms) eqn:Q; [discriminate|]. intros Hd c cms i Hp Hc.
      destruct (part_mem_inv Hm Hp) as [->|(mp & Hi & Hp')].
      + rewrite Hm in Hc. inversion Hc; subst. apply (proj1 (dup_none fmtd cms) Hd).
      + apply first_exn_none in Q. rewrite Forall_forall in Q.
        apply (proj1 (HF mp Hi) (Q mp Hi) c cms i Hp' Hc).
    - intros H. replace (first_exn fmtd ms) with (@None exn).
      + apply dup_none. intros i. apply (H s); auto. constructor.
      + symmetry. apply first_exn_none. rewrite Forall_forall. intros mp Hi. apply (HF mp Hi).
        intros c cms i Hp. apply H. eapply part_mem; eauto. }
  induction s as [t cb|st e cb IH|st e ecb cb IH|k ms ign cb IH|st t tm ms cb IH|] using schema_ind'.
  - simpl. split; auto. intros _ c ms i Hp Hc. inversion Hp; subst; simpl in *; discriminate.
  - simpl. rewrite IH. split; intros H c ms i Hp Hc.
    + destruct (part_arr_inv Hp) as [->|Hp']; [discriminate|eauto].
    + apply (H c); auto. constructor; auto.
  - simpl. rewrite IH. split; intros H c ms i Hp Hc.
    + destruct (part_map_inv Hp) as [->|Hp']; [discriminate|eauto].
    + apply (H c); auto. constructor; auto.
  - eapply Hmem; simpl; eauto.
  - eapply Hmem; simpl; eauto.
  - simpl. split; auto. intros _ c ms i Hp Hc. inversion Hp; subst; simpl in *; discriminate.
Qed.

Lemma ctor_some fmtd s e : ctor_exn fmtd s = Some e ->
  exists c ms, part c s /\ members_of c = Some ms /\
    (forall mp, In mp ms -> ctor_exn fmtd (snd mp) = None) /\ dup_check fmtd ms = Some e.
Proof.
  assert (Hmem : forall s ms, members_of s = Some ms ->
    Forall (fun mp => ctor_exn fmtd (snd mp) = Some e -> exists c ms, part c (snd mp) /\ members_of c = Some ms /\
    (forall mp, In mp ms -> ctor_exn fmtd (snd mp) = None) /\ dup_check fmtd ms = Some e) ms ->
    ctor_exn fmtd s = Some e -> exists c ms, part c s /\ members_of c = Some ms /\
    (forall mp, In mp ms -> ctor_exn fmtd (snd mp) = None) /\ dup_check fmtd ms = Some e).
  { clear s. intros s ms Hm HF. rewrite (ctor_exn_members _ _ Hm). rewrite Forall_forall in HF.
    destruct (first_exn fmtd ms) eqn:Q; intros H.
    - inversion H; subst. destruct (first_exn_some _ _ Q) as (mp & Hi & He).
      destruct (HF mp Hi He) as (c & cms & ? & ? & ? & ?). exists c, cms.
      split; [eapply part_mem; eauto|auto].
    - exists s, ms. split; [constructor|]. split; auto. split; auto.
      apply first_exn_none in Q. rewrite Forall_forall in Q. auto. }
  induction s as [t cb|st e' cb IH|st e' ecb cb IH|k ms ign cb IH|st t tm ms cb IH|] using schema_ind';
    try discriminate.
  - simpl. intros H. destruct (IH H) as (c & cms & ? & ? & ? & ?). exists c, cms. split; [constructor; auto|auto].
  - simpl. intros H. destruct (IH H) as (c & cms & ? & ? & ? & ?). exists c, cms. split; [constructor; auto|auto].
  - eapply Hmem; simpl; eauto.
  - eapply Hmem; simpl; eauto.
Qed.
