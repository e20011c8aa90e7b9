(** Closed forms of [den] for arrays, maps and objects whose elements and members
    have no callbacks and are not embedded unions. *)

From Verif Require Import Spec Model Infra Total Safe Refine Main DenFacts.
From Coq Require Import Permutation Sorting.Sorted.
Local Open Scope string_scope.
Set Implicit Arguments.

(** Anything but an embedded union. *)
Definition not_emb (s : schema) : bool :=
  match s with SUni _ _ tm _ _ => negb (String.eqb tm "") | _ => true end.

Lemma not_emb_embedded s v : not_emb s = true -> embedded s v = None.
Proof.
  destruct s; simpl; auto. intros H. destruct v; auto. destruct (String.eqb tm ""); auto; discriminate.
Qed.

(** The last value of a key, the first value of a key. *)
Fixpoint last_of {A} (k : string) (ps : list (string * A)) : option A :=
  match ps with
  | [] => None
  | (k', v) :: r =>
      match last_of k r with
      | Some x => Some x
      | None => if String.eqb k k' then Some v else None
      end
  end.

Fixpoint first_of {A} (k : string) (ps : list (string * A)) : option A :=
  match ps with
  | [] => None
  | (k', v) :: r => if String.eqb k k' then Some v else first_of k r
  end.

Definition str_lt (a b : string) : Prop := str_ltb a b = true.

(** ** Order on strings *)
Lemma str_ltb_irrefl a : str_ltb a a = false.
Proof.
  induction a as [|x a IH]; simpl; auto. rewrite N.ltb_irrefl, N.eqb_refl. auto.
Qed.

Lemma str_ltb_trans a : forall b c, str_lt a b -> str_lt b c -> str_lt a c.
Proof.
  unfold str_lt. induction a as [|x a IH]; intros [|y b] [|z c]; simpl; auto; try discriminate.
  destruct (N.ltb_spec (N_of_ascii x) (N_of_ascii y)) as [H|H].
  - intros _. destruct (N.ltb_spec (N_of_ascii y) (N_of_ascii z)) as [K|K].
    + intros _. replace (N_of_ascii x <? N_of_ascii z)%N with true by (symmetry; apply N.ltb_lt; lia). auto.
    + destruct (N.eqb_spec (N_of_ascii y) (N_of_ascii z)); [|discriminate]. intros _.
      replace (N_of_ascii x <? N_of_ascii z)%N with true by (symmetry; apply N.ltb_lt; lia). auto.
  - destruct (N.eqb_spec (N_of_ascii x) (N_of_ascii y)) as [Heq|Hne]; [|discriminate]. intros Hab.
    rewrite Heq. destruct (N_of_ascii y <? N_of_ascii z)%N; auto.
    destruct (N_of_ascii y =? N_of_ascii z)%N; [|discriminate]. apply IH; auto.
Qed.

Lemma str_ltb_total a : forall b, str_ltb a b = false -> String.eqb a b = false -> str_ltb b a = true.
Proof.
  induction a as [|x a IH]; intros [|y b]; simpl; auto; try discriminate.
  destruct (N.ltb_spec (N_of_ascii x) (N_of_ascii y)) as [H|H]; [discriminate|].
  destruct (N.eqb_spec (N_of_ascii x) (N_of_ascii y)) as [Heq|Hne].
  - intros H1 H2. rewrite Heq, N.ltb_irrefl, N.eqb_refl. apply IH; auto.
    assert (x = y) by (rewrite <- (ascii_N_embedding x), <- (ascii_N_embedding y), Heq; auto).
    subst. rewrite Ascii.eqb_refl in H2. auto.
  - intros _ _. replace (N_of_ascii y <? N_of_ascii x)%N with true by (symmetry; apply N.ltb_lt; lia). auto.
Qed.

(** ** The sorted map *)
Definition keys_sorted {A} (m : list (string * A)) : Prop := StronglySorted str_lt (map fst m).

Lemma insert_keys A k (v : A) m x : In x (map fst (map_insert k v m)) -> x = k \/ In x (map fst m).
Proof.
  induction m as [|[k' v'] m IH]; simpl; [intuition|].
  destruct (String.eqb k k'); simpl; [tauto|]. destruct (str_ltb k k'); simpl; intuition.
Qed.

Lemma insert_sorted A k (v : A) m : keys_sorted m -> keys_sorted (map_insert k v m).
Proof.
  unfold keys_sorted. induction m as [|[k' v'] m IH]; simpl; intros H; [repeat constructor|].
  inversion H as [|? ? H1 H2]; subst.
  destruct (String.eqb k k') eqn:He; [simpl; auto|].
  destruct (str_ltb k k') eqn:Hl; simpl.
  - constructor; auto. constructor; auto. eapply Forall_impl; [|exact H2].
    intros a Ha. eapply str_ltb_trans; eauto.
  - constructor; auto. rewrite Forall_forall in *. intros x Hx. apply insert_keys in Hx.
    destruct Hx as [->|Hx]; auto. apply str_ltb_total; auto.
Qed.

Lemma first_of_lt A k (m : list (string * A)) : Forall (str_lt k) (map fst m) -> first_of k m = None.
Proof.
  induction m as [|[k' v'] m IH]; simpl; auto. intros H. inversion H as [|? ? H1 H2]; subst.
  destruct (String.eqb_spec k k') as [->|]; auto. unfold str_lt in H1. rewrite str_ltb_irrefl in H1. discriminate.
Qed.

Lemma first_of_insert A k (v : A) m x : keys_sorted m ->
  first_of x (map_insert k v m) =
  match first_of x m with Some y => Some y | None => if String.eqb x k then Some v else None end.
Proof.
  unfold keys_sorted. revert x. induction m as [|[k' v'] m IH]; simpl; intros x H; auto.
  inversion H as [|? ? H1 H2]; subst.
  destruct (String.eqb_spec k k') as [Hk|Hne]; simpl.
  - subst. destruct (String.eqb x k'); auto. destruct (first_of x m); auto.
  - destruct (str_ltb k k') eqn:Hl; simpl.
    + destruct (String.eqb_spec x k) as [Hx|Hx].
      * subst. destruct (String.eqb_spec k k'); [congruence|].
        rewrite first_of_lt; auto. eapply Forall_impl; [|exact H2]. intros a Ha. eapply str_ltb_trans; eauto.
      * destruct (String.eqb x k'); auto. destruct (first_of x m); auto.
    + destruct (String.eqb x k'); auto.
Qed.

Definition insert_all {A} (ps : list (string * A)) (m : list (string * A)) : list (string * A) :=
  fold_left (fun m kv => map_insert (fst kv) (snd kv) m) ps m.

Lemma insert_all_sorted A (ps : list (string * A)) : forall m, keys_sorted m -> keys_sorted (insert_all ps m).
Proof.
  induction ps as [|[k v] ps IH]; simpl; intros m H; auto. apply IH, insert_sorted; auto.
Qed.

Lemma first_of_insert_all A (ps : list (string * A)) x : forall m, keys_sorted m ->
  first_of x (insert_all ps m) = match first_of x m with Some y => Some y | None => first_of x ps end.
Proof.
  induction ps as [|[k v] ps IH]; simpl; intros m H.
  - destruct (first_of x m); auto.
  - rewrite IH by (apply insert_sorted; auto). rewrite first_of_insert by auto.
    destruct (first_of x m); auto. destruct (String.eqb x k); auto.
Qed.

Lemma sorted_first_of A (m : list (string * A)) : forall m', keys_sorted m -> keys_sorted m' ->
  (forall k, first_of k m = first_of k m') -> m = m'.
Proof.
  unfold keys_sorted. induction m as [|[k v] m IH]; intros [|[k' v'] m'] H H' Hf; auto.
  - specialize (Hf k'). simpl in Hf. rewrite String.eqb_refl in Hf. discriminate.
  - specialize (Hf k). simpl in Hf. rewrite String.eqb_refl in Hf. discriminate.
  - simpl in *. inversion H as [|? ? H1 H2]; subst. inversion H' as [|? ? H1' H2']; subst.
    assert (Hk : k = k').
    { pose proof (Hf k) as F. pose proof (Hf k') as F'. simpl in F, F'. rewrite String.eqb_refl in F, F'.
      destruct (String.eqb_spec k k') as [|Hne]; auto. destruct (String.eqb_spec k' k) as [|_]; auto.
      assert (In k (map fst m')).
      { destruct (first_of k m') eqn:E; [|discriminate]. clear - E. induction m' as [|[q r] m' IHm]; simpl in *; [discriminate|].
        destruct (String.eqb_spec k q); auto. }
      assert (In k' (map fst m)).
      { destruct (first_of k' m) eqn:E; [|discriminate]. clear - E. induction m as [|[q r] m IHm]; simpl in *; [discriminate|].
        destruct (String.eqb_spec k' q); auto. }
      rewrite Forall_forall in *. pose proof (H2 _ H3) as L1. pose proof (H2' _ H0) as L2.
      pose proof (str_ltb_trans L1 L2) as L. unfold str_lt in L. rewrite str_ltb_irrefl in L. discriminate. }
    subst k'. pose proof (Hf k) as F. simpl in F. rewrite String.eqb_refl in F. inversion F; subst. f_equal.
    apply IH; auto. intros x. pose proof (Hf x) as Fx. simpl in Fx.
    destruct (String.eqb_spec x k) as [Hx|]; auto. subst. rewrite !first_of_lt; auto.
Qed.

Section Closed.
Variable P : prog.
Notation body := (Spec.body P (den P)).
Notation meaning := (meaning P).

(** A value is accepted, and get() of its parser then returns [v]. *)
Definition gives (s : schema) (j : json) (v : value) : Prop :=
  exists w, meaning s j = inr w /\ v_val w = Some v.

(** ... and a storing array or map can take it over (its type does not throw). *)
Definition yields (s : schema) (j : json) (v : value) : Prop :=
  gives s j v /\ p_store P v = None.

Definition non_null (js : list json) : list json := filter (fun j => negb (is_null j)) js.

(** ** Storing arrays *)
Lemma elems_ok e cb js : nocb e = true -> forall vs empty vals l,
  Forall2 (yields e) (non_null js) vs ->
  elems P (den P) true e cb js empty vals l =
  end_array P true cb (empty && match non_null js with [] => true | _ => false end) (vals ++ vs)%list l.
Proof.
  intros He. induction js as [|j js IH]; intros vs empty vals l H.
  - simpl in *. inversion H; subst. rewrite app_nil_r, andb_true_r. reflexivity.
  - destruct (is_null j) eqn:Hn.
    + destruct j; try discriminate. cbn [elems]. apply IH. exact H.
    + rewrite elems_cons by auto. unfold non_null in *. cbn [filter] in *. rewrite Hn in *. cbn [negb] in *.
      inversion H as [|? v ? vs' ((w & Hw & Hv) & Hst) Hr]; subst.
      rewrite (den_meaning P j e l He), Hw. cbn [andthen]. rewrite Hv. unfold storing. rewrite Hst. cbn [andthen].
      rewrite (IH vs' false (vals ++ [v])%list l Hr). rewrite andb_false_r, <- app_assoc. reflexivity.
Qed.

Lemma elems_inv e js : nocb e = true -> forall empty vals l l' w,
  elems P (den P) true e None js empty vals l = (l', inr w) ->
  exists vs, Forall2 (yields e) (non_null js) vs.
Proof.
  intros He. induction js as [|j js IH]; intros empty vals l l' w H.
  - exists []. constructor.
  - destruct (is_null j) eqn:Hn.
    + destruct j; try discriminate. cbn [elems] in H. destruct (IH _ _ _ _ _ H) as [vs Hvs]. exists vs. auto.
    + rewrite elems_cons in H by auto. rewrite (den_meaning P j e l He) in H.
      destruct (meaning e j) as [x|wj] eqn:Hm; cbn [andthen] in H; [discriminate|].
      destruct (v_val wj) as [v|] eqn:Hv; [|discriminate].
      unfold storing in H. destruct (p_store P v) eqn:Hst; cbn [andthen] in H; [discriminate|].
      destruct (IH _ _ _ _ _ H) as [vs Hvs]. exists (v :: vs).
      unfold non_null in *. cbn [filter]. rewrite Hn. cbn [negb]. constructor; auto. split; auto. exists wj. auto.
Qed.

(** ** Storing maps *)
Lemma map_ok e cb ps : nocb e = true -> not_emb e = true -> forall vs empty kids vals l,
  Forall2 (yields e) (map snd ps) vs ->
  body ps (SMp true e None cb) empty kids vals l =
  end_map P true cb (empty && match ps with [] => true | _ => false end)
          (insert_all (combine (map fst ps) vs) vals) l.
Proof.
  intros He Hn. induction ps as [|[k v] ps IH]; intros vs empty kids vals l H.
  - simpl in *. rewrite andb_true_r. reflexivity.
  - rewrite body_cons. cbn zeta. cbn [map snd fst] in *.
    inversion H as [|? x ? vs' ((w & Hw & Hv) & Hst) Hr]; subst.
    unfold value_of. rewrite (not_emb_embedded _ v Hn), (den_meaning P v e l He), Hw.
    cbn [andthen fst snd]. unfold end_map_elem, invoke. cbn [andthen]. unfold pops; cbn [nothing a_pops fold_left].
    rewrite Hv. unfold storing. rewrite Hst. cbn [andthen]. rewrite (IH vs') by auto. rewrite andb_false_r. reflexivity.
Qed.

Lemma map_inv e ps : nocb e = true -> not_emb e = true -> forall empty kids vals l l' w,
  body ps (SMp true e None None) empty kids vals l = (l', inr w) ->
  exists vs, Forall2 (yields e) (map snd ps) vs.
Proof.
  intros He Hn. induction ps as [|[k v] ps IH]; intros empty kids vals l l' w H.
  - exists []. constructor.
  - rewrite body_cons in H. cbn zeta in H. unfold value_of in H.
    rewrite (not_emb_embedded _ v Hn), (den_meaning P v e l He) in H.
    destruct (meaning e v) as [x|wj] eqn:Hm; cbn [andthen] in H; [discriminate|].
    unfold end_map_elem, invoke in H. cbn [andthen fst snd] in H. unfold pops in H; cbn [nothing a_pops fold_left] in H.
    destruct (v_val wj) as [x|] eqn:Hv; cbn [andthen] in H; [|discriminate].
    unfold storing in H. destruct (p_store P x) eqn:Hst; cbn [andthen] in H; [discriminate|].
    destruct (IH _ _ _ _ _ _ H) as [vs Hvs]. exists (x :: vs). cbn [map snd]. constructor; auto. split; auto. exists wj. auto.
Qed.

(** ** Objects *)

(** Declaration of a string-named member list. *)
Definition names_of (ms : list (mspec * schema)) : list scalar := map (fun mp => m_name (fst mp)) ms.

(** The member declared for a key. *)
Definition declared (ms : list (mspec * schema)) (k : string) : option schema :=
  match index_of (SStr k) ms with
  | Some i => match nth_error ms i with Some (_, c) => Some c | None => None end
  | None => None
  end.

(** A member of the document is acceptable. *)
Definition pair_ok (ms : list (mspec * schema)) (ign : bool) (kv : string * json) : Prop :=
  match declared ms (fst kv) with
  | Some c => exists w, meaning c (snd kv) = inr w
  | None => ign = true
  end.

Definition view_by (c : schema) (v : json) : view :=
  match meaning c v with inr w => w | inl _ => fresh c end.

(** The final view of the member named [n]: that of the last value of its key. *)
Definition member_view (ps : list (string * json)) (mp : mspec * schema) : view :=
  match m_name (fst mp) with
  | SStr n => match last_of n ps with Some v => view_by (snd mp) v | None => fresh (snd mp) end
  | _ => fresh (snd mp)
  end.

(** Members named by pairwise different strings (what can be constructed). *)
Definition named (ms : list (mspec * schema)) : Prop :=
  exists ns, names_of ms = map SStr ns /\ NoDup ns.

Definition members_plain (ms : list (mspec * schema)) : bool :=
  forallb (fun mp => nocb (snd mp) && not_emb (snd mp)) ms.

Lemma members_plain_nth ms i mp : members_plain ms = true -> nth_error ms i = Some mp ->
  nocb (snd mp) = true /\ not_emb (snd mp) = true.
Proof.
  intros H Hn. unfold members_plain in H. rewrite forallb_forall in H.
  apply andb_true_iff. apply H. eapply nth_error_In; eauto.
Qed.

Lemma index_of_nth A nm (ms : list (mspec * A)) i : index_of nm ms = Some i ->
  exists mp, nth_error ms i = Some mp /\ sc_eqb (m_name (fst mp)) nm = true.
Proof.
  revert i; induction ms as [|[m a] r IH]; simpl; intros i H; [discriminate|].
  destruct (sc_eqb (m_name m) nm) eqn:He.
  - inversion H; subst. exists (m, a); auto.
  - destruct (index_of nm r) as [n|]; [|discriminate]. inversion H; subst. simpl. apply IH; auto.
Qed.

Lemma index_of_named ms i mp n : named ms -> nth_error ms i = Some mp -> m_name (fst mp) = SStr n ->
  index_of (SStr n) ms = Some i.
Proof.
  intros (ns & Hns & Hnd). revert ns i Hns Hnd. induction ms as [|[m c] ms IH]; intros ns i Hns Hnd Hi Hn.
  - destruct i; discriminate.
  - destruct ns as [|n0 ns]; [discriminate|]. unfold names_of in Hns. cbn [map fst] in Hns.
    inversion Hns as [[E1 E2]]. inversion Hnd as [|? ? Hni Hnd']; subst.
    destruct i as [|i]; simpl in Hi.
    + inversion Hi; subst. simpl in Hn. cbn [index_of]. rewrite Hn. simpl. rewrite String.eqb_refl. auto.
    + cbn [index_of]. rewrite E1. simpl. destruct (String.eqb_spec n0 n) as [->|].
      * exfalso. apply Hni. assert (In (SStr n) (map SStr ns)).
        { rewrite <- E2. apply in_map_iff. exists mp. split; auto. eapply nth_error_In; eauto. }
        apply in_map_iff in H. destruct H as (y & Hy & Hy'). inversion Hy; subst; auto.
      * rewrite (IH ns i); auto.
Qed.

Lemma nth_set_nth A n m (x : A) l :
  nth_error (set_nth n x l) m = if Nat.eqb m n then (match nth_error l m with Some _ => Some x | None => None end) else nth_error l m.
Proof.
  revert n m. induction l as [|a l IH]; intros [|n] [|m]; simpl; auto.
  - destruct (Nat.eqb m n); auto.
Qed.

(** The effect of a list of acceptable members on the members' views. *)
Definition step_kids (ms : list (mspec * schema)) (kids : list view) (kv : string * json) : list view :=
  match index_of (SStr (fst kv)) ms with
  | Some i => match nth_error ms i with
              | Some (_, c) => set_nth i (view_by c (snd kv)) kids
              | None => kids
              end
  | None => kids
  end.

Lemma obj_body k ms ign cb ps : members_plain ms = true -> Forall (pair_ok ms ign) ps ->
  forall empty kids vals l,
  body ps (SObj k ms ign cb) empty kids vals l =
  end_object P k ms cb (empty && match ps with [] => true | _ => false end)
             (fold_left (step_kids ms) ps kids) l.
Proof.
  intros Hp H. induction H as [|[key v] ps Hkv _ IH]; intros empty kids vals l.
  - simpl. rewrite andb_true_r. reflexivity.
  - rewrite body_cons. cbn zeta. cbn [fold_left]. unfold step_kids at 2. cbn [fst snd].
    unfold pair_ok, declared in Hkv. cbn [fst snd] in Hkv.
    destruct (index_of (SStr key) ms) as [i|] eqn:Hi.
    + destruct (nth_error ms i) as [[m c]|] eqn:Hn.
      * destruct (members_plain_nth _ _ Hp Hn) as [Hc1 Hc2]. cbn [snd] in *.
        unfold value_of. rewrite (not_emb_embedded _ v Hc2), (den_meaning P v c l Hc1).
        destruct Hkv as [w Hw]. unfold view_by. rewrite Hw. cbn [andthen fst snd]. rewrite IH.
        rewrite andb_false_r. reflexivity.
      * apply index_of_nth in Hi. destruct Hi as (mp & Hi & _). congruence.
    + subst ign. rewrite IH, andb_false_r. reflexivity.
Qed.

Lemma obj_inv k ms ign cb ps : members_plain ms = true -> forall empty kids vals l l' w,
  body ps (SObj k ms ign cb) empty kids vals l = (l', inr w) -> Forall (pair_ok ms ign) ps.
Proof.
  intros Hp. induction ps as [|[key v] ps IH]; intros empty kids vals l l' w H; [constructor|].
  rewrite body_cons in H. cbn zeta in H.
  destruct (index_of (SStr key) ms) as [i|] eqn:Hi.
  - destruct (nth_error ms i) as [[m c]|] eqn:Hn; [|discriminate].
    destruct (members_plain_nth _ _ Hp Hn) as [Hc1 Hc2]. cbn [snd] in *.
    unfold value_of in H. rewrite (not_emb_embedded _ v Hc2), (den_meaning P v c l Hc1) in H.
    destruct (meaning c v) as [x|wv] eqn:Hm; cbn [andthen] in H; [discriminate|]. cbn [fst snd] in H.
    constructor; eauto. unfold pair_ok, declared. cbn [fst snd]. rewrite Hi, Hn. eauto.
  - destruct ign; [|discriminate]. constructor; eauto. unfold pair_ok, declared. cbn [fst snd]. rewrite Hi. auto.
Qed.

Lemma last_of_app A k (ps qs : list (string * A)) :
  last_of k (ps ++ qs) = match last_of k qs with Some x => Some x | None => last_of k ps end.
Proof.
  induction ps as [|[k' v] ps IH]; simpl; [destruct (last_of k qs); auto|].
  rewrite IH. destruct (last_of k qs); auto.
Qed.

Lemma kids_final ms ps : named ms ->
  fold_left (step_kids ms) ps (map (fun mp => fresh (snd mp)) ms) = map (member_view ps) ms.
Proof.
  intros Hn. induction ps as [|[key v] ps IH] using rev_ind.
  - simpl. apply map_ext. intros [m c]. unfold member_view. destruct (m_name (fst (m, c))); auto.
  - rewrite fold_left_app, IH. cbn [fold_left]. unfold step_kids. cbn [fst snd].
    assert (Hother : forall n, n <> key -> last_of n (ps ++ [(key, v)]) = last_of n ps).
    { intros n Hne. rewrite last_of_app. simpl. destruct (String.eqb_spec n key); [congruence|auto]. }
    assert (Hthis : last_of key (ps ++ [(key, v)]) = Some v).
    { rewrite last_of_app. simpl. rewrite String.eqb_refl. auto. }
    destruct (index_of (SStr key) ms) as [i|] eqn:Hi.
    + destruct (index_of_nth _ _ Hi) as ([m c] & Hnth & Heq). rewrite Hnth. cbn [fst] in Heq.
      assert (Hname : m_name m = SStr key).
      { destruct (m_name m); simpl in Heq; try discriminate. apply String.eqb_eq in Heq. subst; auto. }
      assert (Hall : forall j, nth_error (set_nth i (view_by c v) (map (member_view ps) ms)) j =
                               nth_error (map (member_view (ps ++ [(key, v)])) ms) j).
      { intros j. rewrite nth_set_nth, !nth_error_map.
        destruct (Nat.eqb_spec j i) as [->|Hne].
        - rewrite Hnth. simpl. unfold member_view. cbn [fst snd]. rewrite Hname, Hthis. auto.
        - destruct (nth_error ms j) as [[m' c']|] eqn:Hj; auto. simpl. unfold member_view. cbn [fst snd].
          destruct (m_name m') as [| | |n] eqn:Hm'; auto. rewrite Hother; auto.
          intros ->. pose proof (index_of_named j Hn Hj Hm'). congruence. }
      revert Hall. generalize (set_nth i (view_by c v) (map (member_view ps) ms)) as a.
      generalize (map (member_view (ps ++ [(key, v)])) ms) as b.
      intros b a. revert b. induction a as [|x a IHa]; intros [|y b] H; auto.
      * specialize (H 0). discriminate.
      * specialize (H 0). discriminate.
      * pose proof (H 0) as H0. simpl in H0. inversion H0; subst. f_equal. apply IHa. intros n. apply (H (S n)).
    + apply map_ext_in. intros [m c] Hin. unfold member_view. cbn [fst snd].
      destruct (m_name m) as [| | |n] eqn:Hm; auto. rewrite Hother; auto. intros ->.
      apply In_nth_error in Hin. destruct Hin as [j Hj].
      pose proof (index_of_named j Hn Hj Hm). congruence.
Qed.

(** The closed form of an object document. *)
Lemma obj_den k ms ign cb ps l : members_plain ms = true -> named ms ->
  Forall (pair_ok ms ign) ps ->
  den P (JObj ps) (SObj k ms ign cb) l =
  end_object P k ms cb (match ps with [] => true | _ => false end) (map (member_view ps) ms) l.
Proof.
  intros Hp Hn H. rewrite den_obj by exact I. rewrite obj_body; auto. rewrite <- kids_final; auto.
Qed.

Lemma obj_den_inv k ms ign cb ps l l' w : members_plain ms = true ->
  den P (JObj ps) (SObj k ms ign cb) l = (l', inr w) -> Forall (pair_ok ms ign) ps.
Proof. intros Hp H. rewrite den_obj in H by exact I. eapply obj_inv; eauto. Qed.

(** *** Order of members, duplicates *)
Lemma last_of_none A k (ps : list (string * A)) : last_of k ps = None <-> ~ In k (map fst ps).
Proof.
  induction ps as [|[k' v] ps IH]; simpl; [tauto|].
  destruct (last_of k ps) as [x|].
  - split; [discriminate|]. intros H. exfalso. assert (Some x = None) by (apply IH; tauto). discriminate.
  - destruct (String.eqb_spec k k') as [Hk|Hk].
    + split; [discriminate|]. intros H. exfalso. apply H. auto.
    + split; auto. intros _ [H|H]; [congruence|]. apply IH; auto.
Qed.

Lemma last_of_perm A k (ps qs : list (string * A)) : Permutation ps qs -> NoDup (map fst ps) ->
  last_of k ps = last_of k qs.
Proof.
  induction 1 as [|[k1 v1] ps qs _ IH|[k1 v1] [k2 v2] ps|ps qs rs H1 IH1 H2 IH2]; intros Hd; auto.
  - simpl. inversion Hd; subst. rewrite IH; auto.
  - simpl in *. destruct (last_of k ps); auto.
    destruct (String.eqb_spec k k1) as [H1|]; destruct (String.eqb_spec k k2) as [H2|]; auto.
    subst. subst. inversion Hd as [|? ? H _]; subst. simpl in H. tauto.
  - rewrite IH1; auto. apply IH2. eapply Permutation_NoDup; [|exact Hd]. apply Permutation_map; auto.
Qed.

Lemma member_view_ext ps qs ms : (forall k, last_of k ps = last_of k qs) ->
  map (member_view ps) ms = map (member_view qs) ms.
Proof.
  intros H. apply map_ext. intros mp. unfold member_view. destruct (m_name (fst mp)); auto. rewrite H. auto.
Qed.
End Closed.
