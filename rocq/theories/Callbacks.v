(** setFinishCallback() and setElementCallback(): a callback is replaced after
    construction.  Citations are relative to /repo/library/sjparser. *)

From Verif Require Import Spec Model Infra Total Safe Refine Main Depth Loose Arrays.
Local Open Scope string_scope.
Set Implicit Arguments.

(** ** The functions *)

(** Which callback: setFinishCallback or, of maps, setElementCallback. *)
Inductive which := Finish | Element.

(** setFinishCallback: value.cpp:55-58, array.h:144-146, s_array.h:172-174,
    map.h:201-203, s_map.h:227-229, object.h:250-252, s_auto_object.h:230-232,
    s_custom_object.h:278-281, union.h:295-298, s_union.h:254-257; setElementCallback:
    map.h:196-198, s_map.h:222-224.  [None]: an empty std::function. *)
Definition set_callback (w : which) (c : option cbid) (p : parser) : parser :=
  match p, w with
  | PVal b t v _, Finish => PVal b t v c
  | PArr b sd st vals e _, Finish => PArr b sd st vals e c
  | PMap b st key vals e ecb _, Finish => PMap b st key vals e ecb c
  | PMap b st key vals e _ cb, Element => PMap b st key vals e c cb
  | PObj b k v ms ig ign _, Finish => PObj b k v ms ig ign c
  | PUni b st v t tm cur ms ig _, Finish => PUni b st v t tm cur ms ig c
  | _, _ => p          (* does not compile *)
  end.

(** The same on the parser at [pi] below the root (parser<n>() of objects and unions,
    parser() of arrays and maps). *)
Definition set_callback_at (w : which) (pi : path) (c : option cbid) (p : parser) : parser :=
  match get pi p with Some q => put pi (set_callback w c q) p | None => p end.

(** ** The declaration with that callback *)
Definition declare (w : which) (c : option cbid) (s : schema) : schema :=
  match s, w with
  | SVal t _, Finish => SVal t c
  | SArr st e _, Finish => SArr st e c
  | SMp st e ecb _, Finish => SMp st e ecb c
  | SMp st e _ cb, Element => SMp st e c cb
  | SObj k ms ign _, Finish => SObj k ms ign c
  | SUni st t tm ms _, Finish => SUni st t tm ms c
  | _, _ => s
  end.

Fixpoint declare_at (w : which) (pi : path) (c : option cbid) (s : schema) : schema :=
  match pi with
  | [] => declare w c s
  | x :: pi' =>
      match s, x with
      | SArr st e cb, Elem => SArr st (declare_at w pi' c e) cb
      | SMp st e ecb cb, Elem => SMp st (declare_at w pi' c e) ecb cb
      | SObj k ms ign cb, Mem n =>
          match nth_error ms n with
          | Some mp => SObj k (set_nth n (fst mp, declare_at w pi' c (snd mp)) ms) ign cb
          | None => s
          end
      | SUni st t tm ms cb, Mem n =>
          match nth_error ms n with
          | Some mp => SUni st t tm (set_nth n (fst mp, declare_at w pi' c (snd mp)) ms) cb
          | None => s
          end
      | _, _ => s
      end
  end.

(** ** Everything but the callbacks stays *)
Fixpoint uncb (p : parser) : parser :=
  match p with
  | PVal b t v _ => PVal b t v None
  | PArr b sd st vals e _ => PArr b sd st vals (uncb e) None
  | PMap b st key vals e _ _ => PMap b st key vals (uncb e) None None
  | PObj b k v ms ig ign _ => PObj b k v (map (fun mp => (fst mp, uncb (snd mp))) ms) ig ign None
  | PUni b st v t tm cur ms ig _ => PUni b st v t tm cur (map (fun mp => (fst mp, uncb (snd mp))) ms) ig None
  | PIgn i => PIgn i
  end.

Fixpoint uncb_s (s : schema) : schema :=
  match s with
  | SVal t _ => SVal t None
  | SArr st e _ => SArr st (uncb_s e) None
  | SMp st e _ _ => SMp st (uncb_s e) None None
  | SObj k ms ign _ => SObj k (map (fun mp => (fst mp, uncb_s (snd mp))) ms) ign None
  | SUni st t tm ms _ => SUni st t tm (map (fun mp => (fst mp, uncb_s (snd mp))) ms) None
  | SIgn => SIgn
  end.

Lemma uncb_set w c p : uncb (set_callback w c p) = uncb p.
Proof. destruct p, w; reflexivity. Qed.

Lemma map_set_nth_same A B (f : A -> B) n x y l : nth_error l n = Some x -> f y = f x ->
  map f (set_nth n y l) = map f l.
Proof.
  revert n; induction l as [|z l IH]; intros [|n] H Hf; simpl in *; try discriminate.
  - injection H as ->. congruence.
  - f_equal; auto.
Qed.

Lemma uncb_set_child p x c q : child p x = Some c -> uncb q = uncb c -> uncb (set_child p x q) = uncb p.
Proof.
  destruct p, x; simpl; intros Hc Hq; try discriminate; try (injection Hc as <-; congruence).
  - destruct (nth_error ms n) as [mp|] eqn:Hn; [|discriminate]. injection Hc as <-. f_equal.
    unfold set_mem. rewrite Hn. eapply map_set_nth_same; eauto. simpl. congruence.
  - injection Hc as <-. destruct q; simpl in *; congruence.
  - destruct (nth_error ms n) as [mp|] eqn:Hn; [|discriminate]. injection Hc as <-. f_equal.
    unfold set_mem. rewrite Hn. eapply map_set_nth_same; eauto. simpl. congruence.
  - injection Hc as <-. destruct q; simpl in *; congruence.
Qed.

Lemma uncb_put pi : forall p c q, get pi p = Some c -> uncb q = uncb c -> uncb (put pi q p) = uncb p.
Proof.
  induction pi as [|x pi IH]; simpl; intros p c q H Hq; [congruence|].
  destruct (child p x) as [y|] eqn:Hy; [|discriminate]. eapply uncb_set_child; eauto.
Qed.

Lemma uncb_set_at w pi c p : uncb (set_callback_at w pi c p) = uncb p.
Proof.
  unfold set_callback_at. destruct (get pi p) as [q|] eqn:Hq; auto. eapply uncb_put; eauto using uncb_set.
Qed.

Lemma schema_set_child p x c q : child p x = Some c -> forall f, schema_of q = f (schema_of c) ->
  schema_of (set_child p x q) =
  match schema_of p, x with
  | SArr st e cb, Elem => SArr st (f e) cb
  | SMp st e ecb cb, Elem => SMp st (f e) ecb cb
  | SObj k ms ign cb, Mem n =>
      match nth_error ms n with Some mp => SObj k (set_nth n (fst mp, f (snd mp)) ms) ign cb | None => schema_of p end
  | SUni st t tm ms cb, Mem n =>
      match nth_error ms n with Some mp => SUni st t tm (set_nth n (fst mp, f (snd mp)) ms) cb | None => schema_of p end
  | s, _ => s
  end.
Proof.
  destruct p, x; simpl; intros Hc f Hq; try discriminate; auto; try (injection Hc as <-; congruence).
  - rewrite nth_error_map. destruct (nth_error ms n) as [mp|] eqn:Hn; [|discriminate]. injection Hc as <-.
    simpl. unfold set_mem. rewrite Hn, map_set_nth. simpl. rewrite Hq. reflexivity.
  - rewrite nth_error_map. destruct (nth_error ms n) as [mp|] eqn:Hn; [|discriminate]. injection Hc as <-.
    simpl. unfold set_mem. rewrite Hn, map_set_nth. simpl. rewrite Hq. reflexivity.
Qed.

Lemma schema_set w c p : schema_of (set_callback w c p) = declare w c (schema_of p).
Proof. destruct p, w; reflexivity. Qed.

Lemma set_callback_at_cons w x pi c p q : child p x = Some q ->
  set_callback_at w (x :: pi) c p = set_child p x (set_callback_at w pi c q).
Proof.
  intros H. unfold set_callback_at. simpl. rewrite H. destruct (get pi q); auto.
  symmetry. apply set_child_same; auto.
Qed.

Lemma schema_set_at w pi c : forall p, schema_of (set_callback_at w pi c p) = declare_at w pi c (schema_of p).
Proof.
  induction pi as [|x pi IH]; intros p; [apply schema_set|].
  destruct (child p x) as [q|] eqn:Hx.
  - rewrite (@set_callback_at_cons w x pi c p q Hx).
    rewrite (@schema_set_child p x q _ Hx (declare_at w pi c)); auto.
    destruct p, x; reflexivity.
  - unfold set_callback_at. simpl. rewrite Hx. destruct p, x; simpl in *; try discriminate; auto.
    + rewrite nth_error_map. destruct (nth_error ms n); [discriminate|reflexivity].
    + rewrite nth_error_map. destruct (nth_error ms n); [discriminate|reflexivity].
Qed.

(** The invariants do not look at callbacks. *)
Lemma att_uncb g p : att g (uncb p) <-> att g p.
Proof.
  induction p as [| | ? ? ? ? ? ? ? IH | ? ? ? ? ? ? ? IH | ? ? ? ? ? ? ? ? ? IH |] using parser_ind'; simpl; try tauto.
  - assert (K : att_ms g (map (fun mp => (fst mp, uncb (snd mp))) ms) <-> att_ms g ms); [|unfold att_ms in K; tauto].
    induction IH as [|mp r Hq _ IHr]; simpl; tauto.
  - assert (K : att_ms g (map (fun mp => (fst mp, uncb (snd mp))) ms) <-> att_ms g ms); [|unfold att_ms in K; tauto].
    induction IH as [|mp r Hq _ IHr]; simpl; tauto.
Qed.

Lemma okd_uncb g p : okd g (uncb p) <-> okd g p.
Proof.
  induction p as [| | ? ? ? ? ? ? ? IH | ? ? ? ? ? ? ? IH | ? ? ? ? ? ? ? ? ? IH |] using parser_ind'; simpl; try tauto.
  - assert (K : okd_ms g (map (fun mp => (fst mp, uncb (snd mp))) ms) <-> okd_ms g ms); [|unfold okd_ms in K; tauto].
    induction IH as [|mp r Hq _ IHr]; simpl; tauto.
  - assert (K : okd_ms g (map (fun mp => (fst mp, uncb (snd mp))) ms) <-> okd_ms g ms); [|unfold okd_ms in K; tauto].
    induction IH as [|mp r Hq _ IHr]; simpl; tauto.
Qed.

Lemma vdisp_uncb e :
  match uncb e with PVal b _ _ _ => b_disp b = None | _ => True end <->
  match e with PVal b _ _ _ => b_disp b = None | _ => True end.
Proof. destruct e; simpl; tauto. Qed.

Lemma rdy_uncb p : forall r, rdy r (uncb p) <-> rdy r p.
Proof.
  induction p as [| ? ? ? ? ? ? IH | ? ? ? ? ? ? ? IH | ? ? ? ? ? ? ? IH | ? ? ? ? ? ? ? ? ? IH |] using parser_ind'; intros r; simpl; try tauto; auto.
  - rewrite IH, vdisp_uncb. tauto.
  - fold (rdy_ms true). induction IH as [|mp q Hq _ IHr]; simpl; [tauto|]. rewrite Hq, IHr. tauto.
  - fold (rdy_ms true). induction IH as [|mp q Hq _ IHr]; simpl; [tauto|]. rewrite Hq, IHr. tauto.
Qed.

Lemma opened_uncb p : opened (uncb p) = opened p.
Proof.
  induction p as [| ? ? ? ? ? ? IH | ? ? ? ? ? ? ? IH | ? ? ? ? ? ? ? IH | ? ? ? ? ? ? ? ? ? IH |] using parser_ind'; simpl; auto.
  - f_equal. f_equal. rewrite map_map. simpl. induction IH as [|mp q Hq _ IHr]; simpl; congruence.
  - f_equal. f_equal. rewrite map_map. simpl. induction IH as [|mp q Hq _ IHr]; simpl; congruence.
Qed.

Lemma wf_uncb p : wf (uncb p) <-> wf p.
Proof.
  induction p as [| b sd st vals e cb IH | ? ? ? ? ? ? ? IH | ? ? ? ? ? ? ? IH | ? ? ? ? ? ? ? ? ? IH |] using parser_ind'; simpl; try tauto.
  - rewrite IH. destruct e; simpl; tauto.
  - induction IH as [|mp q Hq _ IHr]; simpl; [tauto|]. rewrite Hq, IHr. tauto.
  - induction IH as [|[m p] q Hq _ IHr]; simpl in *; [tauto|]. rewrite Hq, IHr. destruct p; simpl; tauto.
Qed.

Lemma child_uncb p x : child (uncb p) x = option_map uncb (child p x).
Proof.
  destruct p, x; simpl; auto; rewrite nth_error_map; destruct (nth_error ms n); auto.
Qed.

Lemma get_uncb pi : forall p, get pi (uncb p) = option_map uncb (get pi p).
Proof.
  induction pi as [|x pi IH]; intros p; simpl; auto. rewrite child_uncb. destruct (child p x); simpl; auto.
Qed.

Lemma att_at_uncb g p p' pi : uncb p' = uncb p -> att_at g p pi -> att_at g p' pi.
Proof.
  intros H (q & H1 & H2). pose proof (get_uncb pi p) as K. rewrite <- H, get_uncb, H1 in K.
  destruct (get pi p') as [q'|] eqn:Hq; [|discriminate]. injection K as K.
  exists q'. split; auto. apply att_uncb. rewrite K. apply att_uncb. auto.
Qed.
