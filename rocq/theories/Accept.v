(** Which documents are accepted: a validation semantics without values, callbacks
    and error texts, and its agreement with [den]. *)

From Verif Require Import Spec Model Infra Total Safe Refine Main DenFacts.
Local Open Scope string_scope.
Set Implicit Arguments.

(** ** The validation semantics

    [verdict j s] is [None] if document [j] does not match declaration [s], and
    [Some b] if it does, where [b] tells whether the parser is set afterwards. *)

(** Parsers that store a value. *)
Definition stores (s : schema) : bool :=
  match s with
  | SVal _ _ => true
  | SArr st _ _ | SMp st _ _ _ | SUni st _ _ _ _ => st
  | SObj k _ _ _ => match k with OPlain => false | _ => true end
  | SIgn => false
  end.

(** A member that is set or not satisfies its presence requirement; [value]: its
    value is needed. *)
Definition satisfied (value : bool) (m : mspec) (c : schema) (isset : bool) : bool :=
  if value then
    if isset then stores c
    else m_opt m && match m_def m with Some _ => true | None => false end
  else isset || m_opt m.

Fixpoint all_satisfied (value : bool) (ms : list (mspec * schema)) (kids : list bool) : bool :=
  match ms, kids with
  | (m, c) :: ms', b :: kids' => satisfied value m c b && all_satisfied value ms' kids'
  | _, _ => true
  end.

Definition end_object_v (k : okind) (ms : list (mspec * schema)) (empty : bool)
           (kids : list bool) : option bool :=
  if empty then Some false
  else if all_satisfied (match k with OAuto => true | _ => false end) ms kids
       then Some true else None.

Definition select_v (rest : schema -> option bool) (store : bool) (t : vtype)
           (ms : list (mspec * schema)) (x : scalar) : option bool :=
  if vtype_eqb (ty_of x) t then
    match index_of x ms with
    | Some i =>
        match nth_error ms i with
        | Some (m, c) =>
            match rest c with
            | Some b => if satisfied store m c b then Some true else None
            | None => None
            end
        | None => None
        end
    | None => None
    end
  else None.

Definition no_kids (s : schema) : list bool :=
  match s with
  | SObj _ ms _ _ | SUni _ _ _ ms _ => map (fun _ => false) ms
  | _ => []
  end.

Section BodyV.
Variable D : json -> schema -> option bool.

Definition value_v (rest : schema -> option bool) (c : schema) (v : json) : option (bool * bool) :=
  match embedded c v with
  | Some (st, t, ms, _, x) => option_map (pair true) (select_v rest st t ms x)
  | None => option_map (pair false) (D v c)
  end.

(** The members [ps] of an object; [kids]: which members are set. *)
Fixpoint body_v (ps : list (string * json)) (s : schema) (empty : bool) (kids : list bool)
         {struct ps} : option bool :=
  match ps with
  | [] =>
      match s with
      | SObj k ms _ _ => end_object_v k ms empty kids
      | SMp _ _ _ _ => Some true
      | SUni _ _ _ _ _ => Some false
      | _ => None
      end
  | (k, v) :: ps' =>
      let rest c := body_v ps' c true (no_kids c) in
      match s with
      | SObj knd ms ign _ =>
          match index_of (SStr k) ms with
          | Some i =>
              match nth_error ms i with
              | Some (_, c) =>
                  match value_v rest c v with
                  | Some (true, b) => end_object_v knd ms false (set_nth i b kids)
                  | Some (false, b) => body_v ps' s false (set_nth i b kids)
                  | None => None
                  end
              | None => None
              end
          | None => if ign then body_v ps' s false kids else None
          end
      | SMp store e _ _ =>
          match value_v rest e v with
          | Some (took, b) =>
              if negb store || (b && stores e)
              then if took then Some true else body_v ps' s false kids
              else None
          | None => None
          end
      | SUni store t tm ms _ =>
          if String.eqb tm "" then None
          else if String.eqb k tm then
            match v with JSc x => select_v rest store t ms x | _ => None end
          else None
      | _ => None
      end
  end.
End BodyV.

Fixpoint verdict (j : json) (s : schema) : option bool :=
  match j with
  | JNull => Some false
  | JSc x =>
      match s with
      | SVal t _ => if vtype_eqb (ty_of x) t then Some true else None
      | SIgn => Some true
      | _ => None
      end
  | JArr js =>
      match s with
      | SArr store e _ =>
          if forallb (fun j =>
               is_null j ||
               match verdict j e with
               | Some b => negb store || (b && stores e)
               | None => false
               end) js
          then Some true else None
      | SIgn => Some true
      | _ => None
      end
  | JObj ps =>
      match s with
      | SVal _ _ | SArr _ _ _ => None
      | SIgn => Some true
      | SUni _ _ tm _ _ =>
          if String.eqb tm "" then None else body_v verdict ps s true (no_kids s)
      | _ => body_v verdict ps s true (no_kids s)
      end
  end.

(** ** Agreement with [den] *)
Section Agree.
Variable P : prog.
Notation body := (Spec.body P (den P)).

(** The view of a parser, compared with the validation's flag: callbacks may have
    popped the value. *)
Definition rel (s : schema) (w : view) (b : bool) : Prop :=
  (v_set w = true -> b = true) /\
  (v_set w = false -> b = true -> stores s = true) /\
  (v_val w <> None -> stores s = true /\ v_set w = true).

Lemma rel_fresh s : rel s (fresh s) false.
Proof. unfold rel. destruct s; simpl; intuition congruence. Qed.

Lemma rel_popped s w b : rel s w b -> rel s (popped w) b.
Proof.
  intros (H1 & H2 & H3). unfold popped. destruct (v_val w) eqn:Hv.
  - destruct H3 as [H3 _]; [congruence|]. unfold rel; simpl. intuition congruence.
  - unfold rel. rewrite Hv. auto.
Qed.

Lemma rel_pop_at s b p : forall w, rel s w b -> rel s (pop_at p w) b.
Proof.
  destruct p as [|n p]; intros w H; simpl; auto using rel_popped.
  destruct (nth_error (v_kids w) n); auto.
Qed.

Lemma rel_pops s b a : forall w, rel s w b -> rel s (pops a w) b.
Proof.
  unfold pops. induction (a_pops a) as [|p ps IH]; simpl; auto using rel_pop_at.
Qed.

Lemma invoke_inv cb o msg l k l' w :
  invoke P cb o msg l k = (l', inr w) -> exists a l1, k a l1 = (l', inr w).
Proof.
  unfold invoke. destruct cb as [c|]; [|eauto].
  destruct (a_res (p_cb P c l o)); unfold err; try discriminate. eauto.
Qed.

Inductive rels : list (mspec * schema) -> list view -> list bool -> Prop :=
| rels_nil : rels [] [] []
| rels_cons m c ms w kids b bs :
    rel c w b -> rels ms kids bs -> rels ((m, c) :: ms) (w :: kids) (b :: bs).
Hint Constructors rels : core.

Lemma rels_fresh ms : rels ms (map (fun mp => fresh (snd mp)) ms) (map (fun _ => false) ms).
Proof. induction ms as [|[m c] ms IH]; simpl; auto using rel_fresh. Qed.

Lemma rels_set ms kids bs : rels ms kids bs -> forall i m c w b,
  nth_error ms i = Some (m, c) -> rel c w b -> rels ms (set_nth i w kids) (set_nth i b bs).
Proof.
  induction 1 as [|m0 c0 ms w0 kids b0 bs H0 H IH]; intros [|i] m c w b Hn Hr; simpl in *; try discriminate.
  - inversion Hn; subst. auto.
  - eauto.
Qed.

Lemma satisfied_value_ok m c w b n v : rel c w b -> member_value P m w n = inr v -> satisfied true m c b = true.
Proof.
  intros (H1 & H2 & H3). unfold member_value, satisfied. destruct (v_set w) eqn:Hs.
  - rewrite (H1 eq_refl). destruct (v_val w); [|discriminate]. intros _. apply H3. congruence.
  - destruct b; auto. destruct (m_opt m); [|discriminate]. destruct (m_def m); auto. discriminate.
Qed.

Lemma satisfied_plain_ok m c w b : rel c w b -> v_set w || m_opt m = true -> satisfied false m c b = true.
Proof.
  intros (H1 & H2 & H3). unfold satisfied. destruct (v_set w); simpl; [rewrite H1 by auto; auto|].
  intros ->. apply orb_true_r.
Qed.

Lemma missing_ok ms kids bs : rels ms kids bs -> missing ms kids = None -> all_satisfied false ms bs = true.
Proof.
  induction 1 as [|m c ms w kids b bs H0 H IH]; simpl; auto.
  destruct (missing ms kids); [discriminate|]. destruct (v_set w || m_opt m) eqn:E; [|discriminate].
  intros _. change (satisfied false m c b && all_satisfied false ms bs = true).
  rewrite IH, andb_true_r by auto. eapply satisfied_plain_ok; eauto.
Qed.

Lemma values_ok ms kids bs : rels ms kids bs -> forall vs, member_values P ms kids = inr vs ->
  all_satisfied true ms bs = true.
Proof.
  induction 1 as [|m c ms w kids b bs H0 H IH]; intros vs; cbn [member_values all_satisfied]; auto.
  destruct (member_values P ms kids); [discriminate|].
  destruct (member_value P m w _) eqn:E; [discriminate|]. intros _.
  rewrite (IH l) by auto. rewrite andb_true_r. eapply satisfied_value_ok; eauto.
Qed.

Lemma end_object_ok k ms ign ocb cb empty kids bs l l' w : rels ms kids bs ->
  end_object P k ms cb empty kids l = (l', inr w) ->
  exists b, end_object_v k ms empty bs = Some b /\ rel (SObj k ms ign ocb) w b.
Proof.
  intros Hr. unfold end_object, end_object_v, err. destruct empty.
  - intros H; inversion H; subst. exists false. split; auto. unfold rel; simpl. intuition congruence.
  - destruct k.
    + destruct (missing ms kids) eqn:Hm; [discriminate|]. intros H. apply invoke_inv in H.
      destruct H as (a & l1 & H). inversion H; subst. rewrite (missing_ok Hr Hm). exists true. split; auto.
      apply rel_pops. unfold rel; simpl. intuition congruence.
    + destruct (member_values P ms kids) as [e|vs] eqn:Hm; [discriminate|]. intros H. apply invoke_inv in H.
      destruct H as (a & l1 & H). inversion H; subst. rewrite (values_ok Hr Hm). exists true. split; auto.
      unfold rel; simpl. intuition congruence.
    + destruct (missing ms kids) eqn:Hm; [discriminate|]. intros H. apply invoke_inv in H.
      destruct H as (a & l1 & H). inversion H; subst. rewrite (missing_ok Hr Hm). exists true. split; auto.
      apply rel_pops. unfold rel; simpl. intuition congruence.
Qed.

Lemma andthen_inv A B (r : list event * (exn + A)) (k : A -> list event -> list event * (exn + B)) l' w :
  andthen r k = (l', inr w) -> exists l1 a, r = (l1, inr a) /\ k a l1 = (l', inr w).
Proof. destruct r as [l1 [e|a]]; simpl; [discriminate|eauto]. Qed.

Lemma end_union_ok st cb i m c t tm ms ucb w b kids l l' u : rel c w b ->
  end_union P st cb i m w kids l = (l', inr u) ->
  satisfied st m c b = true /\ rel (SUni st t tm ms ucb) u true.
Proof.
  intros Hr. unfold end_union, err. destruct st.
  - destruct (member_value P m w _) as [e|v] eqn:Hv; [discriminate|]. intros H. apply invoke_inv in H.
    destruct H as (a & l1 & H). inversion H; subst. split; [eapply satisfied_value_ok; eauto|].
    unfold rel; simpl. intuition congruence.
  - destruct (v_set w || m_opt m) eqn:Hv; [|discriminate]. intros H. apply invoke_inv in H.
    destruct H as (a & l1 & H). inversion H; subst. split; [eapply satisfied_plain_ok; eauto|].
    apply rel_pops. unfold rel; simpl. intuition congruence.
Qed.

Definition agree_out (s : schema) (o : out) (b : option bool) : Prop :=
  forall l w, o = (l, inr w) -> exists x, b = Some x /\ rel s w x.

Definition Q (j : json) : Prop := forall s l, agree_out s (den P j s l) (verdict j s).

Lemma select_ok rest restv st t tm ms cb x l :
  (forall c l, agree_out c (rest c l) (restv c)) ->
  forall l' u, select P rest st t ms cb x l = (l', inr u) ->
  select_v restv st t ms x = Some true /\ forall ucb, rel (SUni st t tm ms ucb) u true.
Proof.
  intros Hrest l' u. unfold select, select_v, err, bad.
  destruct (vtype_eqb (ty_of x) t); [|discriminate].
  destruct (index_of x ms) as [i|]; [|discriminate].
  destruct (nth_error ms i) as [[m c]|] eqn:Hn; [|discriminate].
  intros H. apply andthen_inv in H. destruct H as (l1 & w & H1 & H2).
  destruct (Hrest _ _ _ _ H1) as (b & Hb & Hr). rewrite Hb.
  assert (Hu : forall ucb, satisfied st m c b = true /\ rel (SUni st t tm ms ucb) u true)
    by (intros; eapply end_union_ok; eauto).
  destruct (Hu None) as [Hs _]. rewrite Hs. split; auto. intros ucb. apply Hu.
Qed.

Lemma value_ok rest restv c v l : Q v ->
  (forall c l, agree_out c (rest c l) (restv c)) ->
  forall l' f w, value_of P (den P) rest c v l = (l', inr (f, w)) ->
  exists b, value_v verdict restv c v = Some (f, b) /\ rel c w b.
Proof.
  intros HQ Hrest l' f w. unfold value_of, value_v.
  destruct (embedded c v) as [[[[[st t] ms] cb] x]|] eqn:He.
  - intros H. apply andthen_inv in H. destruct H as (l1 & u & H1 & H2). inversion H2; subst.
    destruct c; simpl in He; try discriminate. destruct v; try discriminate.
    destruct (String.eqb tm ""); inversion He; subst.
    assert (Hsel : select_v restv st t ms x = Some true /\ forall ucb, rel (SUni st t tm ms ucb) w true)
      by (eapply select_ok; eauto).
    destruct Hsel as [Hs Hr]. rewrite Hs. exists true. split; auto.
  - intros H. apply andthen_inv in H. destruct H as (l1 & u & H1 & H2). inversion H2; subst.
    destruct (HQ _ _ _ _ H1) as (b & Hb & Hr). rewrite Hb. exists b. auto.
Qed.

Lemma body_v_cons k v ps s empty kids :
  body_v verdict ((k, v) :: ps) s empty kids =
      let rest c := body_v verdict ps c true (no_kids c) in
      match s with
      | SObj knd ms ign _ =>
          match index_of (SStr k) ms with
          | Some i =>
              match nth_error ms i with
              | Some (_, c) =>
                  match value_v verdict rest c v with
                  | Some (true, b) => end_object_v knd ms false (set_nth i b kids)
                  | Some (false, b) => body_v verdict ps s false (set_nth i b kids)
                  | None => None
                  end
              | None => None
              end
          | None => if ign then body_v verdict ps s false kids else None
          end
      | SMp store e _ _ =>
          match value_v verdict rest e v with
          | Some (took, b) =>
              if negb store || (b && stores e)
              then if took then Some true else body_v verdict ps s false kids
              else None
          | None => None
          end
      | SUni store t tm ms _ =>
          if String.eqb tm "" then None
          else if String.eqb k tm then
            match v with JSc x => select_v rest store t ms x | _ => None end
          else None
      | _ => None
      end.
Proof. destruct s; reflexivity. Qed.

Definition kids_rel (s : schema) (kids : list view) (bs : list bool) : Prop :=
  match s with SObj _ ms _ _ => rels ms kids bs | _ => True end.

Lemma kids_rel_fresh s : kids_rel s (fresh_kids s) (no_kids s).
Proof. destruct s; simpl; auto. apply rels_fresh. Qed.

Lemma end_map_ok st e ecb cb empty vals l l' w :
  end_map P st cb empty vals l = (l', inr w) -> rel (SMp st e ecb cb) w true.
Proof.
  unfold end_map. intros H. apply invoke_inv in H. destruct H as (a & l1 & H). inversion H; subst.
  apply rel_pops. unfold rel; simpl. destruct st; intuition congruence.
Qed.

Lemma body_ok' ps : Forall (fun kv => Q (snd kv)) ps -> forall s empty kids vals l bs,
  kids_rel s kids bs -> agree_out s (body ps s empty kids vals l) (body_v verdict ps s empty bs).
Proof.
  induction 1 as [|[k v] ps Hv Hps IH]; intros s empty kids vals l bs Hk l' w.
  - destruct s; simpl; unfold bad; try discriminate.
    + intros H. exists true. split; auto. eapply end_map_ok; eauto.
    + intros H. eapply end_object_ok; eauto.
    + intros H. inversion H; subst. exists false. split; auto. unfold rel; simpl. intuition congruence.
  - simpl in Hv. rewrite body_cons, body_v_cons. cbn zeta.
    assert (Hrest : forall c l, agree_out c (body ps c true (fresh_kids c) [] l) (body_v verdict ps c true (no_kids c))).
    { intros c l0. apply IH. apply kids_rel_fresh. }
    destruct s; unfold bad, err; try discriminate.
    + intros H. apply andthen_inv in H. destruct H as (l1 & [f u] & H1 & H2).
      destruct (@value_ok _ (fun c => body_v verdict ps c true (no_kids c)) _ _ _ Hv Hrest _ _ _ H1) as (b & Hvv & Hr).
      rewrite Hvv.
      cbn [fst snd] in H2. apply andthen_inv in H2. destruct H2 as (l2 & vals' & H2 & H3).
      assert (Hst : negb store || (b && stores s) = true).
      { destruct store; auto. unfold end_map_elem in H2. apply andthen_inv in H2. destruct H2 as (l3 & u' & H4 & H5).
        apply invoke_inv in H4. destruct H4 as (a & l4 & H4). inversion H4; subst.
        pose proof (rel_pops a Hr) as (R1 & R2 & R3). destruct (v_val (pops a u)); [|discriminate].
        destruct R3 as [R3 R4]; [congruence|]. rewrite R3, (R1 R4). auto. }
      rewrite Hst. destruct f.
      * exists true. split; auto. eapply end_map_ok; eauto.
      * eapply IH; [|exact H3]. exact I.
    + destruct (index_of (SStr k) ms) as [i|].
      * destruct (nth_error ms i) as [[m c]|] eqn:Hn; [|discriminate].
        intros H. apply andthen_inv in H. destruct H as (l1 & [f u] & H1 & H2). cbn [fst snd] in H2.
        destruct (@value_ok _ (fun c => body_v verdict ps c true (no_kids c)) _ _ _ Hv Hrest _ _ _ H1) as (b & Hvv & Hr).
      rewrite Hvv.
        destruct f.
        -- eapply end_object_ok; [|exact H2]. eapply rels_set; eauto.
        -- eapply IH; [|exact H2]. eapply rels_set; eauto.
      * destruct ign; [|discriminate]. apply IH. auto.
    + destruct (String.eqb tm ""); [discriminate|]. destruct (String.eqb k tm); [|discriminate].
      destruct v; try discriminate. intros H.
      assert (Hsel : select_v (fun c => body_v verdict ps c true (no_kids c)) store t ms x = Some true /\
                     forall ucb, rel (SUni store t tm ms ucb) w true)
        by (eapply select_ok; [|exact H]; exact Hrest).
      destruct Hsel as [-> Hr]. exists true. auto.
Qed.

Lemma elems_ok' st e cb js : Forall Q js -> forall empty vals l l' w,
  elems P (den P) st e cb js empty vals l = (l', inr w) ->
  forallb (fun j => is_null j || match verdict j e with Some b => negb st || (b && stores e) | None => false end) js = true
  /\ rel (SArr st e cb) w true.
Proof.
  induction 1 as [|j js Hj _ IH]; intros empty vals l l' w H.
  - split; auto. simpl in H. unfold end_array in H. destruct st; apply invoke_inv in H;
      destruct H as (a & l1 & H); inversion H; subst; [|apply rel_pops]; unfold rel; simpl; intuition congruence.
  - cbn [forallb]. destruct (is_null j) eqn:Hn.
    + destruct j; try discriminate. cbn [elems] in H. apply IH in H. simpl. auto.
    + rewrite elems_cons in H by auto. apply andthen_inv in H. destruct H as (l1 & u & H1 & H2).
      destruct (Hj _ _ _ _ H1) as (b & -> & Hr). destruct st.
      * destruct (v_val u) as [v|] eqn:Hv; [|discriminate]. destruct (storing P v) eqn:Hsv; [discriminate|].
        cbn [andthen] in H2. apply IH in H2. destruct H2 as [H2a H2]. rewrite H2a.
        destruct Hr as (R1 & R2 & R3). destruct R3 as [R3 R4]; [congruence|]. rewrite R3, (R1 R4). auto.
      * apply IH in H2. destruct H2 as [H2a H2]. rewrite H2a. auto.
Qed.

(** Acceptance implies a match, whatever the callbacks do. *)
Theorem verdict_sound j : Q j.
Proof.
  induction j as [|x|js IH|ps IH] using json_ind'; intros s l l' w H.
  - simpl in H. inversion H; subst. exists false. split; auto using rel_fresh.
  - simpl in *. unfold bad in H. destruct s; try discriminate.
    + destruct (vtype_eqb (ty_of x) t); [|discriminate]. unfold end_value in H. apply invoke_inv in H.
      destruct H as (a & l1 & H). inversion H; subst. exists true. split; auto. unfold rel; simpl. intuition congruence.
    + inversion H; subst. exists true. split; auto. unfold rel; simpl. intuition congruence.
  - destruct s; simpl in H; unfold bad in H; try discriminate.
    + apply elems_ok' in H; auto. destruct H as [H1 H2]. exists true. simpl. rewrite H1. auto.
    + inversion H; subst. exists true. split; auto. unfold rel; simpl. intuition congruence.
  - destruct s; cbn [den] in H; unfold bad, err in H; try discriminate; cbn [verdict].
    + eapply body_ok'; [exact IH| |exact H]. exact I.
    + eapply body_ok'; [exact IH| |exact H]. apply kids_rel_fresh.
    + destruct (String.eqb tm ""); [discriminate|]. eapply body_ok'; [exact IH| |exact H]. exact I.
    + inversion H; subst. exists true. split; auto. unfold rel; simpl. intuition congruence.
Qed.
End Agree.
