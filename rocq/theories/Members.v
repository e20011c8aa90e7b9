(** More consequences of [den]: the members of an object one after the other,
    absent/null/ignored/duplicate members, unions, map callbacks. *)

From Verif Require Import Spec Model Infra Total Safe Refine Main DenFacts Closed Accept Order.
Local Open Scope string_scope.
Set Implicit Arguments.

(** None of the members [ps] hands the rest of the object to an embedded union. *)
Definition own (ms : list (mspec * schema)) (ps : list (string * json)) : Prop :=
  Forall (fun kv => match declared ms (fst kv) with
                    | Some c => embedded c (snd kv) = None
                    | None => True
                    end) ps.

Lemma own_plain ms ps : members_plain ms = true -> own ms ps.
Proof.
  intros H. apply Forall_forall. intros [k v] _. cbn [fst snd]. unfold declared.
  destruct (index_of (SStr k) ms) as [i|]; auto. destruct (nth_error ms i) as [[m c]|] eqn:Hn; auto.
  destruct (members_plain_nth _ _ H Hn) as [_ He]. apply not_emb_embedded; auto.
Qed.

Section Members.
Variable P : prog.
Notation body := (Spec.body P (den P)).

(** Members parsed one after the other; [kids]: the views of the declared members. *)
Fixpoint members (ms : list (mspec * schema)) (ign : bool) (ps : list (string * json))
         (kids : list view) (l : list event) : list event * (exn + list view) :=
  match ps with
  | [] => (l, inr kids)
  | (k, v) :: ps' =>
      match index_of (SStr k) ms with
      | Some i =>
          match nth_error ms i with
          | Some (_, c) => andthen (den P v c l) (fun w l => members ms ign ps' (set_nth i w kids) l)
          | None => (l, inl XOther)
          end
      | None => if ign then members ms ign ps' kids l else (l, inl (XStd ("Unexpected member " ++ k)))
      end
  end.

Lemma andthen_assoc A B C (r : list event * (exn + A)) (k : A -> list event -> list event * (exn + B))
      (h : B -> list event -> list event * (exn + C)) :
  andthen (andthen r k) h = andthen r (fun a l => andthen (k a l) h).
Proof. destruct r as [l [e|a]]; reflexivity. Qed.

Lemma andthen_ext A B (r : list event * (exn + A)) (k h : A -> list event -> list event * (exn + B)) :
  (forall a l, k a l = h a l) -> andthen r k = andthen r h.
Proof. intros H. destruct r as [l [e|a]]; simpl; auto. Qed.

Lemma body_app k ms ign cb ps1 ps2 : own ms ps1 -> forall empty kids vals l,
  body (ps1 ++ ps2) (SObj k ms ign cb) empty kids vals l =
  andthen (members ms ign ps1 kids l) (fun kids l =>
  body ps2 (SObj k ms ign cb) (empty && match ps1 with [] => true | _ => false end) kids vals l).
Proof.
  induction 1 as [|[key v] ps1 Hkv _ IH]; intros empty kids vals l.
  - simpl. rewrite andb_true_r. reflexivity.
  - cbn [app]. rewrite body_cons. cbn zeta. cbn [members]. unfold declared in Hkv. cbn [fst snd] in Hkv.
    rewrite andb_false_r.
    assert (IH' : forall kids l, body (ps1 ++ ps2) (SObj k ms ign cb) false kids vals l =
       andthen (members ms ign ps1 kids l) (fun kids l => body ps2 (SObj k ms ign cb) false kids vals l))
      by (intros; rewrite IH; reflexivity).
    destruct (index_of (SStr key) ms) as [i|].
    + destruct (nth_error ms i) as [[m c]|]; [|reflexivity].
      unfold value_of. rewrite Hkv, !andthen_assoc. apply andthen_ext. intros w l'. cbn [andthen fst snd].
      apply IH'.
    + destruct ign; [apply IH'|reflexivity].
Qed.

Lemma members_app ms ign ps1 ps2 : forall kids l,
  members ms ign (ps1 ++ ps2) kids l =
  andthen (members ms ign ps1 kids l) (fun kids l => members ms ign ps2 kids l).
Proof.
  induction ps1 as [|[key v] ps1 IH]; intros kids l; [reflexivity|]. cbn [app members].
  destruct (index_of (SStr key) ms) as [i|].
  - destruct (nth_error ms i) as [[m c]|]; [|reflexivity]. rewrite andthen_assoc. apply andthen_ext. auto.
  - destruct ign; auto.
Qed.

(** The flag "no member yet" does not matter if a member follows. *)
Lemma body_empty ps s e1 e2 kids vals l : ps <> [] ->
  body ps s e1 kids vals l = body ps s e2 kids vals l.
Proof. destruct ps as [|[k v] ps]; [congruence|]. intros _. destruct s; reflexivity. Qed.

(** *** A null member is an absent member *)
Lemma members_other ms ign k i ps1 : index_of (SStr k) ms = Some i -> ~ In k (map fst ps1) ->
  forall kids l l' kids', members ms ign ps1 kids l = (l', inr kids') -> nth_error kids' i = nth_error kids i.
Proof.
  intros Hi. induction ps1 as [|[key v] ps1 IH]; intros Hni kids l l' kids' H; cbn [members] in H.
  - inversion H; subst; auto.
  - simpl in Hni. destruct (index_of (SStr key) ms) as [i'|] eqn:Hi'.
    + destruct (nth_error ms i') as [[m c]|] eqn:Hn; [|discriminate].
      apply andthen_inv in H. destruct H as (l1 & w & _ & H). apply IH in H; [|tauto]. rewrite H.
      rewrite nth_set_nth. destruct (Nat.eqb_spec i i') as [->|]; auto. exfalso. apply Hni. left.
      destruct (index_of_nth _ _ Hi) as ([m1 c1] & N1 & E1). destruct (index_of_nth _ _ Hi') as ([m2 c2] & N2 & E2).
      rewrite N1 in N2. inversion N2; subst. simpl in *. destruct (m_name m2); simpl in *; try discriminate.
      apply String.eqb_eq in E1. apply String.eqb_eq in E2. congruence.
    + destruct ign; [|discriminate]. eapply IH; eauto.
Qed.

Lemma set_nth_same A i (x : A) l : nth_error l i = Some x -> set_nth i x l = l.
Proof.
  revert i. induction l as [|a l IH]; intros [|i] H; simpl in *; try discriminate.
  - congruence.
  - f_equal; auto.
Qed.

Lemma null_is_absent k ms ign cb ps1 key ps2 l : own ms ps1 ->
  declared ms key <> None -> ~ In key (map fst ps1) -> (ps1 ++ ps2)%list <> [] ->
  den P (JObj (ps1 ++ (key, JNull) :: ps2)) (SObj k ms ign cb) l =
  den P (JObj (ps1 ++ ps2)) (SObj k ms ign cb) l.
Proof.
  intros Ho Hd Hni Hne. rewrite !den_obj by exact I. rewrite !body_app by auto.
  destruct (members ms ign ps1 (fresh_kids (SObj k ms ign cb)) l) as [l1 [e|kids]] eqn:Hm; auto.
  cbn [andthen]. rewrite body_cons. cbn zeta.
  unfold declared in Hd. destruct (index_of (SStr key) ms) as [i|] eqn:Hi; [|congruence].
  destruct (nth_error ms i) as [[m c]|] eqn:Hn; [|congruence].
  assert (Hk : nth_error kids i = Some (fresh c)).
  { rewrite (@members_other ms ign key i ps1 Hi Hni _ _ _ _ Hm). cbn. rewrite nth_error_map, Hn. auto. }
  unfold value_of. assert (He : embedded c JNull = None) by (destruct c; auto). rewrite He.
  cbn [den andthen fst snd]. rewrite (set_nth_same i kids Hk).
  destruct ps2 as [|kv ps2].
  - destruct ps1; [exfalso; apply Hne; auto|]. reflexivity.
  - apply body_empty. discriminate.
Qed.

(** *** An unknown member is an absent member *)
Lemma unknown_is_absent k ms cb ps1 key v ps2 l : own ms ps1 ->
  declared ms key = None -> (ps1 ++ ps2)%list <> [] ->
  den P (JObj (ps1 ++ (key, v) :: ps2)) (SObj k ms true cb) l =
  den P (JObj (ps1 ++ ps2)) (SObj k ms true cb) l.
Proof.
  intros Ho Hd Hne. rewrite !den_obj by exact I. rewrite !body_app by auto.
  destruct (members ms true ps1 (fresh_kids (SObj k ms true cb)) l) as [l1 [e|kids]] eqn:Hm; auto.
  cbn [andthen]. rewrite body_cons. cbn zeta.
  unfold declared in Hd. destruct (index_of (SStr key) ms) as [i|] eqn:Hi.
  - destruct (index_of_nth _ _ Hi) as ([m c] & Hn & _). rewrite Hn in Hd. discriminate.
  - destruct ps2 as [|kv ps2].
    + destruct ps1; [exfalso; apply Hne; auto|]. reflexivity.
    + apply body_empty. discriminate.
Qed.

(** ... and an error by default. *)
Lemma unknown_is_error k ms cb ps1 key v ps2 l l1 kids : own ms ps1 ->
  declared ms key = None -> members ms false ps1 (map (fun mp => fresh (snd mp)) ms) l = (l1, inr kids) ->
  den P (JObj (ps1 ++ (key, v) :: ps2)) (SObj k ms false cb) l = (l1, inl (XStd ("Unexpected member " ++ key))).
Proof.
  intros Ho Hd Hm. rewrite den_obj by exact I. rewrite body_app by auto.
  cbn [fresh_kids fresh v_kids]. rewrite Hm. cbn [andthen]. rewrite body_cons. cbn zeta.
  unfold declared in Hd. destruct (index_of (SStr key) ms) as [i|] eqn:Hi; [|reflexivity].
  destruct (index_of_nth _ _ Hi) as ([m c] & Hn & _). rewrite Hn in Hd. discriminate.
Qed.

(** *** The members of an object, when none is an embedded union *)
Lemma obj_members k ms ign cb ps l : own ms ps ->
  den P (JObj ps) (SObj k ms ign cb) l =
  andthen (members ms ign ps (map (fun mp => fresh (snd mp)) ms) l) (fun kids l =>
  end_object P k ms cb (match ps with [] => true | _ => false end) kids l).
Proof.
  intros Ho. rewrite den_obj by exact I. rewrite <- (app_nil_r ps) at 1. rewrite body_app by auto.
  reflexivity.
Qed.

(** *** An embedded union takes the rest of the object *)
Lemma embedded_rest k ms ign cb ps1 key x rest l st t ums ucb i : own ms ps1 ->
  index_of (SStr key) ms = Some i -> option_map snd (nth_error ms i) = Some (SUni st t "" ums ucb) ->
  den P (JObj (ps1 ++ (key, JSc x) :: rest)) (SObj k ms ign cb) l =
  andthen (members ms ign ps1 (map (fun mp => fresh (snd mp)) ms) l) (fun kids l =>
  andthen (select P (fun c l => body rest c true (fresh_kids c) [] l) st t ums ucb x l) (fun u l =>
  end_object P k ms cb false (set_nth i u kids) l)).
Proof.
  intros Ho Hi Hn. rewrite den_obj by exact I. rewrite body_app by auto. apply andthen_ext. intros kids l1.
  rewrite body_cons. cbn zeta. rewrite Hi. destruct (nth_error ms i) as [[m c]|]; [|discriminate].
  simpl in Hn. inversion Hn; subst. unfold value_of. cbn [embedded String.eqb].
  rewrite andthen_assoc. reflexivity.
Qed.

Lemma select_member rest st t ums ucb x l j m c : ty_of x = t -> index_of x ums = Some j ->
  nth_error ums j = Some (m, c) ->
  select P rest st t ums ucb x l =
  andthen (rest c l) (fun w l => end_union P st ucb j m w (map (fun mp => fresh (snd mp)) ums) l).
Proof.
  intros Ht Hi Hn. unfold select. replace (vtype_eqb (ty_of x) t) with true by (symmetry; apply vtype_eqb_eq; auto).
  rewrite Hi, Hn. auto.
Qed.

(** The ids of the callbacks in this situation. *)
Fixpoint members_ids (ms : list (mspec * schema)) (ps : list (string * json)) : list cbid :=
  match ps with
  | [] => []
  | (k, v) :: r => (match declared ms k with Some c => ids v c | None => [] end ++ members_ids ms r)%list
  end.

Lemma body_ids_app k ms ign cb ps1 ps2 : own ms ps1 -> forall empty,
  body_ids ids (ps1 ++ ps2) (SObj k ms ign cb) empty =
  (members_ids ms ps1 ++ body_ids ids ps2 (SObj k ms ign cb) (empty && match ps1 with [] => true | _ => false end))%list.
Proof.
  induction 1 as [|[key v] ps1 Hkv _ IH]; intros empty.
  - simpl. rewrite andb_true_r. reflexivity.
  - cbn [app]. rewrite body_ids_cons. cbn zeta. cbn [members_ids]. rewrite andb_false_r.
    assert (IH' : body_ids ids (ps1 ++ ps2) (SObj k ms ign cb) false =
       (members_ids ms ps1 ++ body_ids ids ps2 (SObj k ms ign cb) false)%list) by (rewrite IH; reflexivity).
    unfold declared in *. cbn [fst snd] in Hkv. destruct (index_of (SStr key) ms) as [i|] eqn:Hi.
    + destruct (index_of_nth _ _ Hi) as ([m c] & Hn & _). rewrite Hn in *. rewrite Hkv, IH', app_assoc. auto.
    + rewrite IH'. auto.
Qed.

Definition object_like (s : schema) : bool :=
  match s with SObj _ _ _ _ | SMp _ _ _ _ => true | SUni _ _ tm _ _ => negb (String.eqb tm "") | _ => false end.

Lemma object_like_den c ps l : object_like c = true ->
  den P (JObj ps) c l = body ps c true (fresh_kids c) [] l.
Proof. destruct c; simpl; try discriminate; auto. destruct (String.eqb tm ""); [discriminate|auto]. Qed.

Lemma object_like_ids c ps : object_like c = true -> ids (JObj ps) c = body_ids ids ps c true.
Proof. destruct c; simpl; try discriminate; auto. Qed.

Lemma embedded_ids k ms ign cb ps1 key x rest st t ums ucb i j m c : own ms ps1 ->
  index_of (SStr key) ms = Some i -> option_map snd (nth_error ms i) = Some (SUni st t "" ums ucb) ->
  index_of x ums = Some j -> nth_error ums j = Some (m, c) -> object_like c = true ->
  ids (JObj (ps1 ++ (key, JSc x) :: rest)) (SObj k ms ign cb) =
  (members_ids ms ps1 ++ ids (JObj rest) c ++ opt_id ucb ++ opt_id cb)%list.
Proof.
  intros Ho Hi Hn Hj Hm Hc. rewrite (@object_like_ids (SObj k ms ign cb) _ eq_refl). rewrite body_ids_app by auto. rewrite body_ids_cons. cbn zeta.
  rewrite Hi. destruct (nth_error ms i) as [[m0 c0]|]; [|discriminate]. simpl in Hn. inversion Hn; subst.
  cbn [embedded String.eqb]. unfold select_ids. rewrite Hj, Hm, object_like_ids, <- app_assoc by auto. auto.
Qed.

(** *** Presence of members *)
Lemma missing_ex ms : forall kids x, missing ms kids = Some x ->
  exists i m c w, nth_error ms i = Some (m, c) /\ nth_error kids i = Some w /\ v_set w || m_opt m = false.
Proof.
  induction ms as [|[m c] ms IH]; intros [|w kids] x H; simpl in H; try discriminate.
  destruct (missing ms kids) as [y|] eqn:Hy.
  - destruct (IH kids y Hy) as (i & a & b & d & K). exists (S i), a, b, d. auto.
  - destruct (v_set w || m_opt m) eqn:E; [discriminate|]. exists 0, m, c, w. auto.
Qed.

Lemma missing_ex' ms : forall kids i m c w, nth_error ms i = Some (m, c) -> nth_error kids i = Some w ->
  v_set w || m_opt m = false -> exists x, missing ms kids = Some x.
Proof.
  induction ms as [|[m c] ms IH]; intros [|w kids] [|i] m1 c1 w1 K1 K2 E; try discriminate; simpl in *.
  - inversion K1; inversion K2; subst. rewrite E. destruct (missing ms kids); eauto.
  - destruct (IH kids i m1 c1 w1 K1 K2 E) as [x ->]. eauto.
Qed.

Lemma missing_spec ms kids x : List.length kids = List.length ms ->
  missing ms kids = Some x <->
  exists i m c w, nth_error ms i = Some (m, c) /\ nth_error kids i = Some w /\ m_name m = x /\
    v_set w = false /\ m_opt m = false /\
    forall i' m' c' w', i < i' -> nth_error ms i' = Some (m', c') -> nth_error kids i' = Some w' ->
      v_set w' || m_opt m' = true.
Proof.
  revert kids. induction ms as [|[m c] ms IH]; intros [|w kids] L; simpl in L; try discriminate; cbn [missing].
  - split; [discriminate|]. intros ([|i] & ? & ? & ? & H & _); discriminate.
  - injection L as L. specialize (IH kids L). destruct (missing ms kids) as [y|] eqn:Hm.
    + split.
      * intros H. inversion H; subst. destruct IH as [IH _]. destruct (IH eq_refl) as (i & m1 & c1 & w1 & H1 & H2 & H3 & H4 & H5 & H6).
        exists (S i), m1, c1, w1. repeat split; auto. intros [|i'] m' c' w' Hlt K1 K2; [lia|]. simpl in K1, K2. apply (H6 i' m' c' w'); auto; lia.
      * intros (i & m1 & c1 & w1 & H1 & H2 & H3 & H4 & H5 & H6). destruct i as [|i].
        -- exfalso. destruct IH as [_ IH].
           assert (Hex : exists x, missing ms kids = Some x) by eauto. clear - H6 Hex.
           destruct Hex as [x0 Hx]. pose proof (missing_ex ms kids Hx) as H.
           destruct H as (i & a & b & d & K1 & K2 & K3).
           assert (v_set d || m_opt a = true) by (apply (H6 (S i) a b d); auto; lia). congruence.
        -- simpl in H1, H2. apply IH. exists i, m1, c1, w1. repeat split; auto.
           intros i' m' c' w' Hlt K1 K2. apply (H6 (S i') m' c' w'); auto; lia.
    + destruct (v_set w || m_opt m) eqn:E.
      * split; [discriminate|]. intros (i & m1 & c1 & w1 & H1 & H2 & H3 & H4 & H5 & H6). destruct i as [|i].
        -- simpl in H1, H2. inversion H1; inversion H2; subst. rewrite H4, H5 in E. discriminate.
        -- simpl in H1, H2. apply IH. exists i, m1, c1, w1. repeat split; auto.
           intros i' m' c' w' Hlt K1 K2. apply (H6 (S i') m' c' w'); auto; lia.
      * apply orb_false_iff in E. destruct E as [E1 E2]. split.
        -- intros H. inversion H; subst. exists 0, m, c, w. repeat split; auto.
           intros [|i'] m' c' w' Hlt K1 K2; [lia|]. simpl in K1, K2.
           destruct (v_set w' || m_opt m') eqn:E; auto. exfalso.
           assert (Hmax : exists x, missing ms kids = Some x).
           { eapply missing_ex'; eauto. }
           destruct Hmax; congruence.
        -- intros (i & m1 & c1 & w1 & H1 & H2 & H3 & H4 & H5 & H6). destruct i as [|i].
           ++ simpl in H1, H2. inversion H1; inversion H2; subst. auto.
           ++ simpl in H1, H2. exfalso. assert (K : None = Some x).
              { apply IH. exists i, m1, c1, w1. repeat split; auto.
                intros i' m' c' w' Hlt K1 K2. apply (H6 (S i') m' c' w'); auto; lia. }
              discriminate.
Qed.

Lemma missing_none_spec ms kids : List.length kids = List.length ms ->
  missing ms kids = None <->
  forall i m c w, nth_error ms i = Some (m, c) -> nth_error kids i = Some w -> v_set w || m_opt m = true.
Proof.
  revert kids. induction ms as [|[m c] ms IH]; intros [|w kids] L; simpl in L; try discriminate; cbn [missing].
  - split; auto. intros _ [|i]; discriminate.
  - injection L as L. specialize (IH kids L). destruct (missing ms kids) as [y|].
    + split; [discriminate|]. intros H. apply IH. intros i a b d K1 K2. apply (H (S i) a b d K1 K2).
    + destruct IH as [IH _]. specialize (IH eq_refl). destruct (v_set w || m_opt m) eqn:E.
      * split; auto. intros _ [|i] a b d K1 K2; simpl in *; eauto. inversion K1; inversion K2; subst; auto.
      * split; [discriminate|]. intros H. specialize (H 0 m c w eq_refl eq_refl). congruence.
Qed.

(** *** Values of the members of an SAutoObject *)
Lemma member_values_ok ms kids vs : List.length kids = List.length ms ->
  member_values P ms kids = inr vs <->
  List.length vs = List.length ms /\
  forall i m c w v, nth_error ms i = Some (m, c) -> nth_error kids i = Some w -> nth_error vs i = Some v ->
    (if v_set w then v_val w = Some v else m_opt m = true /\ m_def m = Some v) /\ p_store P v = None.
Proof.
  revert kids vs. induction ms as [|[m c] ms IH]; intros [|w kids] vs L; simpl in L; try discriminate; cbn [member_values].
  - split.
    + intros H; inversion H; subst. split; auto. intros [|i]; discriminate.
    + intros [H _]. destruct vs; [auto|discriminate].
  - injection L as L. destruct (member_values P ms kids) as [e|vs'] eqn:Hm.
    + split; [discriminate|]. intros [H1 H2]. destruct vs as [|v vs]; [discriminate|].
      specialize (IH kids vs L). rewrite Hm in IH. assert (K : inl e = inr vs).
      { apply IH. split; [simpl in H1; lia|]. intros i a b d f K1 K2 K3. apply (H2 (S i) a b d f K1 K2 K3). }
      discriminate.
    + assert (IH' := IH kids vs' L). rewrite Hm in IH'. destruct IH' as [IH1 _]. destruct (IH1 eq_refl) as [L' IH'].
      unfold member_value. split.
      * intros H.
        assert (Hv : exists v, vs = v :: vs' /\ (if v_set w then v_val w = Some v else m_opt m = true /\ m_def m = Some v) /\ p_store P v = None).
        { unfold storing in H. destruct (v_set w); [destruct (v_val w) as [u|]|destruct (m_opt m); [destruct (m_def m) as [u|]|]];
            try discriminate; destruct (p_store P u) eqn:Hu; inversion H; subst; eauto. }
        destruct Hv as (v & -> & Hv). split; [simpl; lia|].
        intros [|i] a b d f K1 K2 K3; simpl in *; [inversion K1; inversion K2; inversion K3; subst; auto|apply (IH' i a b d f K1 K2 K3)].
      * intros [H1 H2]. destruct vs as [|v vs]; [discriminate|].
        pose proof (H2 0 m c w v eq_refl eq_refl eq_refl) as [Hv Hst].
        assert (vs = vs').
        { specialize (IH kids vs L). rewrite Hm in IH. destruct IH as [_ IH]. assert (K : @inr exn (list value) vs' = inr vs).
          { apply IH. split; [simpl in H1; lia|]. intros i a b d f K1 K2 K3. apply (H2 (S i) a b d f K1 K2 K3). }
          inversion K; auto. }
        subst. unfold storing. destruct (v_set w); [rewrite Hv, Hst; auto|]. destruct Hv as [-> ->]. rewrite Hst. auto.
Qed.

Lemma member_values_ex ms : forall kids y, member_values P ms kids = inl y ->
  exists i m c w z, nth_error ms i = Some (m, c) /\ nth_error kids i = Some w /\
                    member_value P m w (name_text P (m_name m)) = inl z.
Proof.
  induction ms as [|[m c] ms IHm]; intros [|w kids] y Hm; cbn [member_values] in Hm; try discriminate.
  destruct (member_values P ms kids) as [z|vs] eqn:Hy.
  - destruct (IHm kids z Hy) as (i & a & b & d & z' & K). exists (S i), a, b, d, z'. auto.
  - destruct (member_value P m w (name_text P (m_name m))) as [z|] eqn:E; [|discriminate]. exists 0, m, c, w, z. auto.
Qed.

Lemma member_values_all ms : forall kids vs i a b d, member_values P ms kids = inr vs ->
  nth_error ms i = Some (a, b) -> nth_error kids i = Some d ->
  exists v, member_value P a d (name_text P (m_name a)) = inr v.
Proof.
  induction ms as [|[m c] ms IHm]; intros [|w kids] vs [|i] a b d Hm K1 K2; try discriminate;
    cbn [member_values] in Hm; destruct (member_values P ms kids) as [z|vs'] eqn:Hy; try discriminate.
  - simpl in *. inversion K1; inversion K2; subst. destruct (member_value P a d _); [discriminate|eauto].
  - simpl in K1, K2. eapply IHm; eauto.
Qed.

(** The error: that of the member with the highest index that has no value. *)
Lemma member_values_err ms kids e : List.length kids = List.length ms ->
  member_values P ms kids = inl e <->
  exists i m c w, nth_error ms i = Some (m, c) /\ nth_error kids i = Some w /\
    member_value P m w (name_text P (m_name m)) = inl e /\
    forall i' m' c' w', i < i' -> nth_error ms i' = Some (m', c') -> nth_error kids i' = Some w' ->
      exists v, member_value P m' w' (name_text P (m_name m')) = inr v.
Proof.
  revert kids. induction ms as [|[m c] ms IH]; intros [|w kids] L; simpl in L; try discriminate; cbn [member_values].
  - split; [discriminate|]. intros ([|i] & ? & ? & ? & H & _); discriminate.
  - injection L as L. specialize (IH kids L). destruct (member_values P ms kids) as [y|vs] eqn:Hm.
    + split.
      * intros H. inversion H; subst. destruct IH as [IH _]. destruct (IH eq_refl) as (i & m1 & c1 & w1 & H1 & H2 & H3 & H4).
        exists (S i), m1, c1, w1. repeat split; auto. intros [|i'] m' c' w' Hlt K1 K2; [lia|]. simpl in K1, K2. apply (H4 i' m' c' w'); auto; lia.
      * intros (i & m1 & c1 & w1 & H1 & H2 & H3 & H4). destruct i as [|i].
        -- exfalso.
           assert (exists i m c w z, nth_error ms i = Some (m, c) /\ nth_error kids i = Some w /\
                     member_value P m w (name_text P (m_name m)) = inl z).
           { eapply member_values_ex; eauto. }
           destruct H as (i & a & b & d & z & K1 & K2 & K3).
           destruct (H4 (S i) a b d) as [v Hv]; auto; [lia|congruence].
        -- simpl in H1, H2. f_equal. assert (K : @inl exn (list value) y = inl e); [|congruence]. apply IH. exists i, m1, c1, w1. repeat split; auto.
           intros i' m' c' w' Hlt K1 K2. apply (H4 (S i') m' c' w'); auto; lia.
    + assert (Hall : forall i a b d, nth_error ms i = Some (a, b) -> nth_error kids i = Some d ->
                exists v, member_value P a d (name_text P (m_name a)) = inr v).
      { intros i a b d K1 K2. eapply member_values_all; eauto. }
      destruct (member_value P m w (name_text P (m_name m))) as [z|v] eqn:E.
      * split.
        -- intros H. inversion H; subst. exists 0, m, c, w. repeat split; auto.
           intros [|i'] m' c' w' Hlt K1 K2; [lia|]. simpl in K1, K2. eauto.
        -- intros (i & m1 & c1 & w1 & H1 & H2 & H3 & H4). destruct i as [|i].
           ++ simpl in H1, H2. inversion H1; inversion H2; subst. congruence.
           ++ simpl in H1, H2. destruct (Hall i m1 c1 w1 H1 H2) as [v Hv]. congruence.
      * split; [discriminate|]. intros (i & m1 & c1 & w1 & H1 & H2 & H3 & H4). destruct i as [|i].
        -- simpl in H1, H2. inversion H1; inversion H2; subst. congruence.
        -- simpl in H1, H2. destruct (Hall i m1 c1 w1 H1 H2) as [v' Hv]. congruence.
Qed.

(** *** Map element callbacks *)
Lemma map_elem_events st e c cb ps : nocb e = true -> not_emb e = true -> forall empty kids vals l l' w,
  body ps (SMp st e (Some c) cb) empty kids vals l = (l', inr w) ->
  exists m, (if st then True else m = vals) /\
  l' = (l ++ map (fun kv => Ev c (OElem (fst kv) (view_by P e (snd kv)))) ps
          ++ match cb with
             | Some f => [Ev f (OSelf (View true (empty && match ps with [] => true | _ => false end)
                                        (if st then Some (VMap m) else None) 0 []))]
             | None => []
             end)%list.
Proof.
  intros He Hn. induction ps as [|[k v] ps IH]; intros empty kids vals l l' w H.
  - exists vals. split; [destruct st; auto|]. rewrite andb_true_r. simpl in H. unfold end_map in H.
    destruct cb as [f|]; cbn [invoke] in H.
    + destruct (a_res (p_cb P f l _)); unfold err in H; inversion H; subst. auto.
    + inversion H; subst. rewrite !app_nil_r. auto.
  - rewrite body_cons in H. cbn zeta in H. unfold value_of in H.
    rewrite (not_emb_embedded _ v Hn), (den_meaning P v e l He) in H.
    destruct (meaning P e v) as [x|wv] eqn:Hm; cbn [andthen] in H; [discriminate|]. cbn [fst snd] in H.
    apply andthen_inv in H. destruct H as (l1 & vals' & H1 & H2). unfold end_map_elem in H1.
    apply andthen_inv in H1. destruct H1 as (l2 & u & H1 & H3). cbn [invoke] in H1.
    destruct (a_res (p_cb P c l (OElem k wv))); unfold err in H1; try discriminate. inversion H1; subst.
    assert (Hl : l1 = (l ++ [Ev c (OElem k wv)])%list /\ (if st then True else vals' = vals)).
    { destruct st; [destruct (v_val _) as [z|]; [destruct (storing P z)|]|]; inversion H3; subst; auto. }
    destruct Hl as [-> Hv]. destruct (IH _ _ _ _ _ _ H2) as (m & K1 & ->). exists m. split.
    { destruct st; congruence. }
    rewrite andb_false_r. cbn [map fst snd]. unfold view_by. rewrite Hm. rewrite <- !app_assoc. reflexivity.
Qed.
End Members.
