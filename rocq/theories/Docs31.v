(** Property theorems, part 31: a storing parser is the one that does not store, plus a record (C57). *)

From Verif Require Import Spec Model Infra Total Safe Refine Main Api ApiProofs History ApiFacts Outcome Docs3.
Local Open Scope string_scope.
Set Implicit Arguments.

(** ** C57 *)

(** What the record of a storing parser has for a member [m] whose parser shows [w]: the value
    that get() of that parser returns, or the default value if the member is not set. *)
Inductive field (m : mspec) (w : view) : value -> Prop :=
| fd_value v : v_set w = true -> v_val w = Some v -> field m w v
| fd_default d : v_set w = false -> m_opt m = true -> m_def m = Some d -> field m w d.

(** The record of the members [ms] whose parsers show [ks]: a field for each member, in the
    order of declaration. *)
Definition record (ms : list (mspec * schema)) (ks : list view) (vs : list value) : Prop :=
  List.length ks = List.length ms /\ List.length vs = List.length ms /\
  forall i m c w v, nth_error ms i = Some (m, c) -> nth_error ks i = Some w -> nth_error vs i = Some v -> field m w v.

(** A member that has nothing to be kept: no value and no default value, or one whose storing throws. *)
Definition nothing_to_keep (P : prog) (m : mspec) (w : view) : Prop := forall v, field m w v -> p_store P v <> None.

(** [o]: what a parser that does not store and has no callback of its own has done. The
    parser that stores has done [o']: the same callbacks before; the same error, or another
    one if the object ended without a mandatory member; nothing is set if nothing was
    set. Otherwise it [keeps] something, or it throws because a member [lacks] it. *)
Definition keeps_record (o o' : outcome) (keeps : view -> list event -> outcome -> Prop) (lacks : view -> Prop) : Prop :=
  match o with
  | Failed l e => exists e', o' = Failed l e' /\ (e' = e \/ exists x, e' = c_str ("Can not set value: " ++ x))
  | Parsed l w =>
      if v_set w then keeps w l o' \/ (lacks w /\ exists x, o' = Failed l (c_str ("Can not set value: " ++ x)))
      else o' = Parsed l w
  | _ => False
  end.

(** *** Proof *)
Lemma member_value_ok P m w n v : member_value P m w n = inr v -> field m w v.
Proof.
  unfold member_value, storing. destruct (v_set w) eqn:Hw.
  - destruct (v_val w) as [x|] eqn:Hv; [|discriminate]. destruct (p_store P x); [discriminate|]. intros H. injection H as <-. apply fd_value; auto.
  - destruct (m_opt m) eqn:Ho; [|discriminate]. destruct (m_def m) as [d|] eqn:Hd; [|discriminate].
    destruct (p_store P d); [discriminate|]. intros H. injection H as <-. apply fd_default; auto.
Qed.

Lemma member_value_no P m w n e : member_value P m w n = inl e -> nothing_to_keep P m w.
Proof.
  unfold member_value, storing. intros H v [x Hw Hv|x Hw Ho Hd]; rewrite ?Hw, ?Hv, ?Ho, ?Hd in H; destruct (p_store P x); congruence.
Qed.

Lemma member_values_ok P ms : forall ks vs, List.length ks = List.length ms -> member_values P ms ks = inr vs -> record ms ks vs.
Proof.
  induction ms as [|[m c] ms IH]; intros [|w ks] vs Hl H; try discriminate Hl.
  - cbn in H. injection H as <-. split; [auto|]. split; [auto|]. intros [|i]; discriminate.
  - cbn [member_values] in H. destruct (member_values P ms ks) as [e|vs'] eqn:Hr; [discriminate|].
    destruct (member_value P m w (name_text P (m_name m))) as [e|v] eqn:Hv; [discriminate|]. injection H as <-.
    cbn [List.length] in Hl. injection Hl as Hl. destruct (IH ks vs' Hl Hr) as (_ & Hn & Hf). split; [cbn [List.length]; congruence|]. split; [cbn [List.length]; congruence|].
    intros [|i] m' c' w' v' K1 K2 K3; cbn [nth_error] in *; [|eauto]. injection K1 as <- <-. injection K2 as <-. injection K3 as <-. eapply member_value_ok; eauto.
Qed.

Lemma member_values_no P ms : forall ks e, member_values P ms ks = inl e ->
  exists i m c w, nth_error ms i = Some (m, c) /\ nth_error ks i = Some w /\ nothing_to_keep P m w.
Proof.
  induction ms as [|[m c] ms IH]; intros [|w ks] e H; try discriminate H.
  cbn [member_values] in H. destruct (member_values P ms ks) as [x|vs'] eqn:Hr.
  - destruct (IH ks x Hr) as (i & m' & c' & w' & K1 & K2 & K3). exists (S i), m', c', w'. auto.
  - destruct (member_value P m w (name_text P (m_name m))) as [y|v] eqn:Hv; [|discriminate]. exists 0, m, c, w. split; [reflexivity|]. split; [reflexivity|].
    eapply member_value_no; eauto.
Qed.

Lemma missing_no P ms : forall ks x, missing ms ks = Some x -> exists e, member_values P ms ks = inl e.
Proof.
  induction ms as [|[m c] ms IH]; intros [|w ks] x H; try discriminate H.
  cbn [missing member_values] in *. destruct (missing ms ks) as [y|] eqn:Hm.
  - destruct (IH ks y Hm) as (e & ->). eauto.
  - destruct (member_values P ms ks) as [e|vs]; [eauto|]. unfold member_value.
    destruct (v_set w); [discriminate H|]. destruct (m_opt m); [discriminate H|]. eauto.
Qed.

(** Until it ends, an object does the same whatever its kind. *)
Lemma same_until_end P D ps ms ign : forall emp ks vals l, List.length ks = List.length ms ->
  exists r : list event * (exn + (bool * list view)),
  (forall k cb, Spec.body P D ps (SObj k ms ign cb) emp ks vals l = andthen r (fun x l => end_object P k ms cb (fst x) (snd x) l)) /\
  (forall l' x, r = (l', inr x) -> List.length (snd x) = List.length ms).
Proof.
  induction ps as [|[k j] ps IH]; intros emp ks vals l Hl.
  - exists (l, inr (emp, ks)). split; [reflexivity|]. intros l' x H. injection H as <- <-. exact Hl.
  - cbn [Spec.body]. destruct (index_of (SStr k) ms) as [i|].
    + destruct (nth_error ms i) as [[m c]|]; [|exists (l, inl XOther); split; [reflexivity|discriminate]].
      destruct (value_of P D (fun c l => Spec.body P D ps c true (fresh_kids c) [] l) c j l) as [l1 [e|[t w]]];
        [exists (l1, inl e); split; [reflexivity|discriminate]|]. cbn [andthen fst snd]. destruct t.
      * exists (l1, inr (false, set_nth i w ks)). split; [reflexivity|]. intros l' x H. injection H as <- <-. cbn [snd]. rewrite set_nth_length. exact Hl.
      * apply IH. rewrite set_nth_length. exact Hl.
    + destruct ign; [apply IH; exact Hl|]. eexists (l, inl _). split; [reflexivity|discriminate].
Qed.

Lemma kind_supported k k' ms ign cb cb' j : supported j (SObj k ms ign cb) = supported j (SObj k' ms ign cb').
Proof.
  destruct j as [| | |ps]; try reflexivity. cbn [supported].
  induction ps as [|[n j] ps IH]; [reflexivity|]. rewrite !Main.sup_body_cons. 
  destruct (index_of (SStr n) ms) as [i|]; [destruct (nth_error ms i) as [[m c]|]; [|reflexivity]|destruct ign; [rewrite IH|]; reflexivity].
  unfold sup_value. rewrite IH. reflexivity.
Qed.

(** An SAutoObject does what an Object with the same members does: the same callbacks of the
    members, with the same arguments. Where the Object is set, the SAutoObject keeps the record
    of what the members' parsers of the Object show, and tells it to its callback; or some member
    has nothing to be kept, and it throws. *)
Lemma c57_auto_object : forall (tk tk' : tokenizer) g g' yerr yerr' P ms ign cb (a : api tk) (a' : api tk') M b bufs M' b' bufs' j,
  reads g yerr (SObj OPlain ms ign None) a M b bufs j -> reads g' yerr' (SObj OAuto ms ign cb) a' M' b' bufs' j ->
  past a' = past a -> supported j (SObj OPlain ms ign None) = true ->
  keeps_record (doc g yerr P M b bufs a) (doc g' yerr' P M' b' bufs' a')
    (fun w l o' => exists vs, record ms (v_kids w) vs /\
       o' = expected (invoke P cb (OVal (VTup vs)) msg_cb_false l
              (fun _ l => (l, inr (View true false (Some (VTup vs)) 0 (map popped (v_kids w)))))))
    (fun w => exists i m c x, nth_error ms i = Some (m, c) /\ nth_error (v_kids w) i = Some x /\ nothing_to_keep P m x).
Proof.
  intros tk tk' g g' yerr yerr' P ms ign cb a a' M b bufs M' b' bufs' j Hr Hr' Hp Hs. unfold keeps_record.
  assert (Hs' : supported j (SObj OAuto ms ign cb) = true) by (rewrite (kind_supported OAuto OPlain ms ign cb None); exact Hs).
  rewrite (doc_expected P Hr Hs), (doc_expected P Hr' Hs'), Hp. destruct j as [|x|js|ps]; [reflexivity|eexists; split; [reflexivity|left; reflexivity]..|].
  change (den P (JObj ps) (SObj OPlain ms ign None) (past a)) with (Spec.body P (den P) ps (SObj OPlain ms ign None) true (map (fun mp => fresh (snd mp)) ms) [] (past a)).
  change (den P (JObj ps) (SObj OAuto ms ign cb) (past a)) with (Spec.body P (den P) ps (SObj OAuto ms ign cb) true (map (fun mp => fresh (snd mp)) ms) [] (past a)).
  destruct (@same_until_end P (den P) ps ms ign true (map (fun mp => fresh (snd mp)) ms) [] (past a)) as (r & Hb & Hk); [apply map_length|].
  rewrite !Hb. destruct r as [l [e|[emp ks]]]; cbn [andthen expected fst snd]; [eexists; split; [reflexivity|left; reflexivity]|].
  specialize (Hk l (emp, ks) eq_refl). cbn [snd] in Hk. unfold end_object. destruct emp; [reflexivity|].
  destruct (missing ms ks) as [x|] eqn:Hm.
  - destruct (@missing_no P ms ks x Hm) as (e & ->). cbn [err expected caught]. eexists. split; [reflexivity|]. right. unfold cannot_set_msg. eauto.
  - cbn [invoke nothing pops a_pops fold_left expected v_set v_kids]. destruct (member_values P ms ks) as [e|vs] eqn:Hv.
    + right. split; [eapply member_values_no; eauto|]. unfold cannot_set_msg. cbn [err expected caught]. eauto.
    + left. exists vs. split; [eapply member_values_ok; eauto|reflexivity].
Qed.

(** An SCustomObject is an Object whose callback returns the value. *)
Lemma c57_custom_object : forall (tk tk' : tokenizer) g g' yerr yerr' P ms ign cb (a : api tk) (a' : api tk') M b bufs M' b' bufs' j,
  reads g yerr (SObj OPlain ms ign None) a M b bufs j -> reads g' yerr' (SObj OCustom ms ign cb) a' M' b' bufs' j ->
  past a' = past a -> supported j (SObj OPlain ms ign None) = true ->
  match doc g yerr P M b bufs a with
  | Failed l e => doc g' yerr' P M' b' bufs' a' = Failed l e
  | Parsed l w =>
      if v_set w then
        let o v := View true false (Some v) 0 (v_kids w) in
        doc g' yerr' P M' b' bufs' a' =
        expected (invoke P cb (OCust (o (VCust None)) (VCust None)) msg_cb_false l (fun act l => (l, inr (pops act (o (VCust (a_new act)))))))
      else doc g' yerr' P M' b' bufs' a' = Parsed l w
  | _ => False
  end.
Proof.
  intros tk tk' g g' yerr yerr' P ms ign cb a a' M b bufs M' b' bufs' j Hr Hr' Hp Hs.
  assert (Hs' : supported j (SObj OCustom ms ign cb) = true) by (rewrite (kind_supported OCustom OPlain ms ign cb None); exact Hs).
  rewrite (doc_expected P Hr Hs), (doc_expected P Hr' Hs'), Hp. destruct j as [|x|js|ps]; [reflexivity..|].
  change (den P (JObj ps) (SObj OPlain ms ign None) (past a)) with (Spec.body P (den P) ps (SObj OPlain ms ign None) true (map (fun mp => fresh (snd mp)) ms) [] (past a)).
  change (den P (JObj ps) (SObj OCustom ms ign cb) (past a)) with (Spec.body P (den P) ps (SObj OCustom ms ign cb) true (map (fun mp => fresh (snd mp)) ms) [] (past a)).
  destruct (@same_until_end P (den P) ps ms ign true (map (fun mp => fresh (snd mp)) ms) [] (past a)) as (r & Hb & Hk); [apply map_length|].
  rewrite !Hb. destruct r as [l [e|[emp ks]]]; cbn [andthen expected fst snd]; [reflexivity|].
  unfold end_object. destruct emp; [reflexivity|]. destruct (missing ms ks) as [x|]; reflexivity.
Qed.

(** An SUnion is a Union that keeps the value of the member that was selected. *)
Lemma c57_union : forall (tk tk' : tokenizer) g g' yerr yerr' P t tm ms cb (a : api tk) (a' : api tk') M b bufs M' b' bufs' j,
  reads g yerr (SUni false t tm ms None) a M b bufs j -> reads g' yerr' (SUni true t tm ms cb) a' M' b' bufs' j ->
  past a' = past a -> tm <> "" -> supported j (SUni false t tm ms None) = true ->
  keeps_record (doc g yerr P M b bufs a) (doc g' yerr' P M' b' bufs' a')
    (fun w l o' => exists m c x v, nth_error ms (v_cur w) = Some (m, c) /\ nth_error (v_kids w) (v_cur w) = Some x /\ field m x v /\
       o' = expected (invoke P cb (OVal (VVar (v_cur w) v)) msg_cb_false l
              (fun _ l => (l, inr (View true false (Some (VVar (v_cur w) v)) (v_cur w) (set_nth (v_cur w) (popped x) (v_kids w)))))))
    (fun w => exists m c x, nth_error ms (v_cur w) = Some (m, c) /\ nth_error (v_kids w) (v_cur w) = Some x /\ nothing_to_keep P m x).
Proof.
  intros tk tk' g g' yerr yerr' P t tm ms cb a a' M b bufs M' b' bufs' j Hr Hr' Hp Ht Hs. unfold keeps_record.
  apply String.eqb_neq in Ht.
  assert (Hs' : supported j (SUni true t tm ms cb) = true).
  { destruct j as [| | |ps]; try exact Hs. cbn [supported] in *. rewrite Ht in *. destruct ps as [|[n v] ps]; [reflexivity|]. exact Hs. }
  rewrite (doc_expected P Hr Hs), (doc_expected P Hr' Hs'), Hp. destruct j as [|x|js|ps]; [reflexivity|eexists; split; [reflexivity|left; reflexivity]..|].
  cbn [den]. rewrite Ht. destruct ps as [|[n v] ps]; [reflexivity|]. cbn [Spec.body]. rewrite Ht.
  destruct (String.eqb n tm); [|eexists; split; [reflexivity|left; reflexivity]].
  destruct v as [|x|js|ps']; try (eexists; split; [reflexivity|left; reflexivity]).
  unfold select. destruct (vtype_eqb (ty_of x) t); [|eexists; split; [reflexivity|left; reflexivity]].
  destruct (index_of x ms) as [i|] eqn:Hi; [|eexists; split; [reflexivity|left; reflexivity]].
  destruct (nth_error ms i) as [[m c]|] eqn:Hn; [|eexists; split; [reflexivity|left; reflexivity]].
  destruct (Spec.body P (den P) ps c true (fresh_kids c) [] (past a)) as [l [e|w]]; cbn [andthen expected]; [eexists; split; [reflexivity|left; reflexivity]|].
  unfold end_union. destruct (v_set w || m_opt m) eqn:Ho.
  - cbn [invoke nothing pops a_pops fold_left expected v_set v_kids v_cur].
    assert (Hx : nth_error (set_nth i w (map (fun mp => fresh (snd mp)) ms)) i = Some w).
    { apply nth_error_set_nth_eq. rewrite map_length. apply nth_error_Some. rewrite Hn. discriminate. }
    destruct (member_value P m w ("#" ++ n2s i)) as [e|v] eqn:Hv.
    + right. split; [exists m, c, w; split; [exact Hn|]; split; [exact Hx|eapply member_value_no; eauto]|]. cbn [err expected caught]. unfold cannot_set_msg. eauto.
    + left. exists m, c, w, v. split; [exact Hn|]. split; [exact Hx|]. split; [eapply member_value_ok; eauto|]. rewrite set_nth_set_nth. reflexivity.
  - apply orb_false_iff in Ho as [Hw Ho]. unfold member_value. rewrite Hw, Ho. cbn [err expected caught]. eexists. split; [reflexivity|]. right. unfold cannot_set_msg. eauto.
Qed.
