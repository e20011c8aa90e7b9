(** Property theorems, part 10 (C39, C40), with their proofs. *)

From Verif Require Import Spec Model Infra Total Safe Refine Main Api ApiProofs Callbacks History Observe ObserveApi
  Outcome Docs3.
Local Open Scope string_scope.
Set Implicit Arguments.

(** ** C39 *)

(** Whatever the history: after setFinishCallback() or setElementCallback() ([w]) on the
    parser at [pi], the next document has the outcome it has for a new Parser over a new
    parser object whose declaration has the new callback [c] there ([None]: none). *)
Lemma c39_like_declared : forall (tk : tokenizer) g yerr P s (a : api tk) w pi c M b bufs bs j st,
  history g yerr s a -> at_start a ->
  content M (b :: bufs) = Some bs -> tokenize tk bs = (toks j, Some st) ->
  supported j (declare_at w pi c s) = true ->
  doc g yerr P M b bufs (user_set_callback w pi c a) =
  doc g yerr P M b bufs (start tk g (mk (declare_at w pi c s)) (past a)).
Proof.
  intros tk g yerr P s a w pi c M b bufs bs j st Hh Ha Hc Ht Hs.
  assert (Hr : reads g yerr (declare_at w pi c s) (user_set_callback w pi c a) M b bufs j).
  { split; [eapply h_callback; eauto|]. split; [|eauto].
    destruct Ha as [Ha|(H1 & H2 & H3)]; [left|right]; auto. }
  exact (c21_like_new P Hr Hs).
Qed.

(** ... that is, exactly what the declaration with the new callback says. *)
Lemma c39_declared_result : forall (tk : tokenizer) g yerr P s (a : api tk) w pi c M b bufs bs j st,
  history g yerr s a -> at_start a ->
  content M (b :: bufs) = Some bs -> tokenize tk bs = (toks j, Some st) ->
  supported j (declare_at w pi c s) = true ->
  doc g yerr P M b bufs (user_set_callback w pi c a) = expected (den P j (declare_at w pi c s) (past a)).
Proof.
  intros tk g yerr P s a w pi c M b bufs bs j st Hh Ha Hc Ht Hs.
  change (past a) with (past (user_set_callback w pi c a)). apply doc_expected; auto. split; [eapply h_callback; eauto|]. split; [|eauto].
  destruct Ha as [Ha|(H1 & H2 & H3)]; [left|right]; auto.
Qed.

(** The call itself invokes nothing and changes nothing that the API shows, of any
    parser of the declaration. *)
Lemma c39_nothing_else : forall (tk : tokenizer) (a : api tk) w pi c,
  past (user_set_callback w pi c a) = past a /\
  (forall rel, option_map view_of (get rel (m_root (a_m (user_set_callback w pi c a)))) =
               option_map view_of (get rel (m_root (a_m a)))).
Proof.
  intros tk a w pi c. split; [reflexivity|]. intros rel. simpl.
  pose proof (uncb_set_at w pi c (m_root (a_m a))) as H.
  assert (K : forall p, view_of (uncb p) = view_of p).
  { induction p as [| | | b0 k v ms ig ign cb IH | b0 st v t tm cur ms ig cb IH |] using parser_ind'; auto.
    - cbn [uncb view_of base_of]. f_equal. rewrite map_map. simpl. induction IH as [|[m q] r Hq _ IHr]; simpl in *; congruence.
    - cbn [uncb view_of base_of]. f_equal. rewrite map_map. simpl. induction IH as [|[m q] r Hq _ IHr]; simpl in *; congruence. }
  pose proof (get_uncb rel (set_callback_at w pi c (m_root (a_m a)))) as K1.
  rewrite H, get_uncb in K1.
  destruct (get rel (m_root (a_m a))) as [p|], (get rel (set_callback_at w pi c (m_root (a_m a)))) as [q|];
    try discriminate; auto. simpl in *. injection K1 as K1. rewrite <- (K p), <- (K q). congruence.
Qed.

(** ** C40 *)

(** [X]: the callbacks that only look: they return true, call no pop() and assign no
    value; the others do not depend on what the onlookers were told. *)
Definition only_look (X : cbid -> bool) (P : prog) : Prop :=
  (forall c l o, X c = true -> p_cb P c l o = mkA [] None CTrue) /\
  (forall c l o, X c = false ->
     p_cb P c l o = p_cb P c (filter (fun e => match e with Ev i _ => negb (X i) end) l) o).

(** One is the other with onlookers added, removed or replaced. *)
Inductive same_but (X : cbid -> bool) : option cbid -> option cbid -> Prop :=
| sb_same c : same_but X c c
| sb_look c c' : (forall i, c = Some i -> X i = true) -> (forall i, c' = Some i -> X i = true) -> same_but X c c'.

Inductive same_decl (X : cbid -> bool) : schema -> schema -> Prop :=
| sd_val t c c' : same_but X c c' -> same_decl X (SVal t c) (SVal t c')
| sd_arr st e e' c c' : same_decl X e e' -> same_but X c c' -> same_decl X (SArr st e c) (SArr st e' c')
| sd_map st e e' x x' c c' : same_decl X e e' -> same_but X x x' -> same_but X c c' ->
    same_decl X (SMp st e x c) (SMp st e' x' c')
| sd_obj k ms ms' ign c c' :
    Forall2 (fun mp mp' => fst mp = fst mp' /\ same_decl X (snd mp) (snd mp')) ms ms' -> same_but X c c' ->
    same_decl X (SObj k ms ign c) (SObj k ms' ign c')
| sd_uni st t tm ms ms' c c' :
    Forall2 (fun mp mp' => fst mp = fst mp' /\ same_decl X (snd mp) (snd mp')) ms ms' -> same_but X c c' ->
    same_decl X (SUni st t tm ms c) (SUni st t tm ms' c')
| sd_ign : same_decl X SIgn SIgn.

(** How one call ends: the result, the callback invocations so far - those of [X] left
    out - and what the API shows afterwards, also after an exception. *)
Inductive reply :=
| Returned (l : list event) (w : view)
| Threw (sj yajl : string) (l : list event) (w : view)
| Crashed.

Definition reply_of (X : cbid -> bool) (tk : tokenizer) (r : ares tk) : reply :=
  let rest l := filter (fun e => match e with Ev i _ => negb (X i) end) l in
  match r with
  | AOk a => Returned (rest (past a)) (view_of (m_root (a_m a)))
  | AThrow x a => Threw (pe_sj x) (pe_yajl x) (rest (past a)) (view_of (m_root (a_m a)))
  | _ => Crashed
  end.

(** The replies to a sequence of parse() and finish() calls; the user goes on after a
    ParsingError. *)
Fixpoint replies (X : cbid -> bool) (tk : tokenizer) (E : env) (g : nat) (yerr : list ascii -> string)
  (os : list op) (a : api tk) : list reply :=
  match os with
  | [] => []
  | o :: r =>
      let x := do_op E g yerr o a in
      reply_of X x :: match x with AOk a' | AThrow _ a' => replies X E g yerr r a' | _ => [] end
  end.

Lemma only_look_lift X P : only_look X P -> onlookers X (lift P).
Proof.
  intros [H1 H2]. split; [|split]; simpl; auto.
  - intros c l T a Hc. rewrite H1; auto.
  - intros c l T a Hc. rewrite (H2 c l); auto. fold (others X l). rewrite obs_hide. reflexivity.
Qed.

Lemma reply_quiet X tk (r : ares tk) : reply_of X (aquiet X r) = reply_of X r.
Proof.
  assert (K : forall l, filter (fun e => match e with Ev i _ => negb (X i) end) (others X l) = others X l).
  { intros l. unfold others. induction l as [|[i o] l IH]; simpl; auto. destruct (X i) eqn:Hi; simpl; auto.
    rewrite Hi. simpl. congruence. }
  destruct r; simpl; auto; unfold past; simpl; rewrite K, view_hide; reflexivity.
Qed.

Lemma replies_quiet X tk E g yerr os : onlookers X E -> forall a : api tk,
  replies X E g yerr os (quiet X a) = replies X E g yerr os a.
Proof.
  intros HE. induction os as [|o os IH]; intros a; simpl; auto.
  rewrite <- (quiet_op g yerr HE), reply_quiet. f_equal.
  destruct (do_op E g yerr o a); simpl; auto.
Qed.

Lemma same_hide X c c' : same_but X c c' -> hide_cb X c = hide_cb X c'.
Proof.
  intros [|c1 c2 H1 H2]; auto. unfold hide_cb.
  destruct c1 as [i|], c2 as [k|]; auto; try rewrite (H1 i eq_refl); try rewrite (H2 k eq_refl); auto.
Qed.

Section SameInd.
  Variable X : cbid -> bool.
  Variable Q : schema -> schema -> Prop.
  Hypothesis H1 : forall t c c', same_but X c c' -> Q (SVal t c) (SVal t c').
  Hypothesis H2 : forall st e e' c c', Q e e' -> same_but X c c' -> Q (SArr st e c) (SArr st e' c').
  Hypothesis H3 : forall st e e' x x' c c', Q e e' -> same_but X x x' -> same_but X c c' ->
    Q (SMp st e x c) (SMp st e' x' c').
  Hypothesis H4 : forall k ms ms' ign c c', Forall2 (fun mp mp' => fst mp = fst mp' /\ Q (snd mp) (snd mp')) ms ms' ->
    same_but X c c' -> Q (SObj k ms ign c) (SObj k ms' ign c').
  Hypothesis H5 : forall st t tm ms ms' c c', Forall2 (fun mp mp' => fst mp = fst mp' /\ Q (snd mp) (snd mp')) ms ms' ->
    same_but X c c' -> Q (SUni st t tm ms c) (SUni st t tm ms' c').
  Hypothesis H6 : Q SIgn SIgn.

  Fixpoint same_ind' s s' (H : same_decl X s s') : Q s s' :=
    let fix go ms ms' (K : Forall2 (fun mp mp' => fst mp = fst mp' /\ same_decl X (snd mp) (snd mp')) ms ms')
      : Forall2 (fun mp mp' => fst mp = fst mp' /\ Q (snd mp) (snd mp')) ms ms' :=
      match K with
      | Forall2_nil _ => Forall2_nil _
      | @Forall2_cons _ _ _ x y r r' Hx Hr =>
          @Forall2_cons _ _ (fun mp mp' => fst mp = fst mp' /\ Q (snd mp) (snd mp')) x y r r'
            (match Hx with conj A B => conj A (same_ind' B) end) (go r r' Hr)
      end in
    match H with
    | @sd_val _ t c c' K => @H1 t c c' K
    | @sd_arr _ st e e' c c' K1 K2 => @H2 st e e' c c' (same_ind' K1) K2
    | @sd_map _ st e e' x x' c c' K1 K2 K3 => @H3 st e e' x x' c c' (same_ind' K1) K2 K3
    | @sd_obj _ k ms ms' ign c c' K1 K2 => @H4 k ms ms' ign c c' (go ms ms' K1) K2
    | @sd_uni _ st t tm ms ms' c c' K1 K2 => @H5 st t tm ms ms' c c' (go ms ms' K1) K2
    | sd_ign _ => H6
    end.
End SameInd.

Lemma same_mk_dflt X s s' : same_decl X s s' -> hide X (mk s) = hide X (mk s') /\ dflt_s s = dflt_s s'.
Proof.
  assert (K : forall ms ms' : list (mspec * schema),
    Forall2 (fun mp mp' => fst mp = fst mp' /\ hide X (mk (snd mp)) = hide X (mk (snd mp')) /\ dflt_s (snd mp) = dflt_s (snd mp')) ms ms' ->
    map (fun mp => (fst mp, hide X (snd mp))) (map (fun mp => (fst mp, mk (snd mp))) ms) =
    map (fun mp => (fst mp, hide X (snd mp))) (map (fun mp => (fst mp, mk (snd mp))) ms') /\
    map (fun mp => dflt_s (snd mp)) ms = map (fun mp => dflt_s (snd mp)) ms').
  { intros ms ms' H. rewrite !map_map. simpl.
    induction H as [|[m p] [m' p'] r r' (K1 & K2 & K3) _ [I1 I2]]; simpl in *; auto. subst m'. split; congruence. }
  intros H.
  induction H as [t c c' Hc|st e e' c c' [IH _] Hc|st e e' x x' c c' [IH _] Hx Hc|k ms ms' ign c c' IH Hc|st t tm ms ms' c c' IH Hc|]
    using same_ind'.
  - simpl. rewrite (same_hide Hc). auto.
  - simpl. rewrite (same_hide Hc), IH. auto.
  - simpl. rewrite (same_hide Hc), (same_hide Hx), IH. auto.
  - destruct (K _ _ IH) as [K1 K2]. cbn [mk hide dflt_s]. rewrite K1, K2, (same_hide Hc). destruct k; auto.
  - destruct (K _ _ IH) as [K1 K2]. cbn [mk hide dflt_s]. rewrite K1, (same_hide Hc).
    destruct IH as [|[m p] [m' p'] r r' (I1 & I2 & I3) _]; auto. simpl in I3. cbn [snd]. rewrite I3. auto.
  - auto.
Qed.

(** Two declarations that differ in onlookers only: every sequence of parse() and
    finish() calls, with any texts, gives the same results, the same exceptions, the
    same invocations of the other callbacks, the same values. *)
Lemma c40_same_replies : forall (X : cbid -> bool) (tk : tokenizer) (P : prog) g yerr s s' l os,
  only_look X P -> same_decl X s s' ->
  replies X (lift P) g yerr os (start tk g (mk s) l) = replies X (lift P) g yerr os (start tk g (mk s') l).
Proof.
  intros X tk P g yerr s s' l os HP Hs. apply only_look_lift in HP.
  rewrite <- (replies_quiet g yerr os HP (start tk g (mk s) l)), <- (replies_quiet g yerr os HP (start tk g (mk s') l)).
  f_equal. unfold quiet, start, attach, with_m, plain. simpl.
  rewrite <- !set_disp_hide, (proj1 (same_mk_dflt Hs)). reflexivity.
Qed.

(** The callback of a parser. *)
Definition callback_of (w : which) (p : parser) : option cbid :=
  match p, w with
  | PVal _ _ _ cb, Finish | PArr _ _ _ _ _ cb, Finish | PMap _ _ _ _ _ _ cb, Finish
  | PObj _ _ _ _ _ _ cb, Finish | PUni _ _ _ _ _ _ _ _ cb, Finish => cb
  | PMap _ _ _ _ _ ecb _, Element => ecb
  | _, _ => None
  end.

Lemma hide_set X w c p : same_but X (callback_of w p) c -> hide X (set_callback w c p) = hide X p.
Proof. intros H. apply same_hide in H. destruct p, w; simpl in *; auto; rewrite H; reflexivity. Qed.

(** Replacing one onlooker by another at any moment, also between the parse() calls of
    one document, in any state: the same. *)
Lemma c40_replaced_anytime : forall (X : cbid -> bool) (tk : tokenizer) (P : prog) g yerr (a : api tk) w pi c p os,
  only_look X P -> get pi (m_root (a_m a)) = Some p -> same_but X (callback_of w p) c ->
  replies X (lift P) g yerr os (user_set_callback w pi c a) = replies X (lift P) g yerr os a.
Proof.
  intros X tk P g yerr a w pi c p os HP Hg Hs. apply only_look_lift in HP.
  rewrite <- (replies_quiet g yerr os HP a), <- (replies_quiet g yerr os HP (user_set_callback w pi c a)).
  f_equal. unfold quiet, user_set_callback, with_m, plain, set_callback_at. simpl. rewrite Hg.
  rewrite <- put_hide, hide_set, put_hide, put_same; auto.
Qed.
