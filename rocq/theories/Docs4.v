(** Property theorems, part 4 (C31), with their proofs. *)

From Verif Require Import Spec Model Infra Total Safe Refine Main Api ApiProofs History ApiFacts
  Outcome DenFacts Closed Accept Complete Order Calls Members Round Blank Access Findings Docs1 Docs3 Move MoveState.
Local Open Scope string_scope.
Set Implicit Arguments.

(** ** C31 *)

(** In every program that constructs, moves, move-assigns (whole parsers or the
    sub-parsers in place), uses and destroys parsers: the pointers inside every
    parser that is not moved from are right.  [here] is spelled out below. *)
Lemma c31_pointers : forall (uses : bool) (m : objects) id o l q,
  program uses m -> m id = Some (true, o) -> inside l o = Some q -> here (id, l) q.
Proof. intros uses m id o l q P Hm Hq. apply (@program_sound _ _ P _ _ Hm l q Hq). Qed.

(** The table of names and the table of ids of an object or union. *)
Definition tables_of (q : pobj) : option (tables * list (mspec * slot pobj)) :=
  match q with
  | XObj _ _ _ tb ms _ _ _ | XUni _ _ _ _ _ _ tb _ ms _ _ => Some (tb, ms)
  | _ => None
  end.

(** Looking up any name finds exactly the own member that the model's [lookup]
    finds - the sub-parser inside this object, or the one referred to. *)
Lemma c31_lookup : forall (uses : bool) (m : objects) id o l q tb ms nm,
  program uses m -> m id = Some (true, o) -> inside l o = Some q -> tables_of q = Some (tb, ms) ->
  find_key nm (t_map tb) =
  match lookup nm ms with
  | Some i =>
      match nth_error ms i with
      | Some (_, Own _) => Some (id, l ++ [i])%list
      | Some (_, Ref p) => Some p
      | None => None
      end
  | None => None
  end.
Proof.
  intros uses m id o l q tb ms nm P Hm Hq Ht.
  pose proof (@c31_pointers _ _ _ _ _ _ P Hm Hq) as H.
  assert (R : registered (id, l) ms tb).
  { destruct q; simpl in Ht; try discriminate; inversion Ht; subst; simpl in H; tauto. }
  destruct R as (R & _). rewrite R. change (index_of nm ms) with (lookup nm ms).
  destruct (lookup nm ms) as [i|]; auto. unfold member_place.
  destruct (nth_error ms i) as [[mm []]|]; auto.
Qed.

(** No key of the table dangles: it points to the name of an own member, with
    unchanged text. *)
Lemma c31_keys : forall (uses : bool) (m : objects) id o l q tb ms b i txt p,
  program uses m -> m id = Some (true, o) -> inside l o = Some q -> tables_of q = Some (tb, ms) ->
  In (KView b i txt, p) (t_map tb) ->
  b = (id, l) /\ exists mm s, nth_error ms i = Some (mm, s) /\ m_name mm = txt.
Proof.
  intros uses m id o l q tb ms b i txt p P Hm Hq Ht Hin.
  pose proof (@c31_pointers _ _ _ _ _ _ P Hm Hq) as H.
  assert (R : registered (id, l) ms tb).
  { destruct q; simpl in Ht; try discriminate; inversion Ht; subst; simpl in H; tauto. }
  destruct R as (_ & R & _). apply (R _ _ Hin).
Qed.

(** Union ids are the member indices. *)
Lemma c31_union_ids : forall (uses : bool) (m : objects) id o l b st v t tm cur tb ids ms ig cb i mm s,
  program uses m -> m id = Some (true, o) -> inside l o = Some (XUni b st v t tm cur tb ids ms ig cb) ->
  nth_error ms i = Some (mm, s) ->
  (forall j mm' s', nth_error ms j = Some (mm', s') -> slot_place (id, l ++ [j])%list s' = slot_place (id, l ++ [i])%list s -> j = i) ->
  find_id (slot_place (id, l ++ [i])%list s) ids = Some i.
Proof.
  intros uses m id o l b st v t tm cur tb ids ms ig cb i mm s P Hm Hq Hn Hu.
  pose proof (@c31_pointers _ _ _ _ _ _ P Hm Hq) as [_ H]. apply H.
  - unfold member_place. rewrite Hn. reflexivity.
  - intros j Hj. unfold member_place in Hj. destruct (nth_error ms j) as [[m' s']|] eqn:E; [|discriminate].
    simpl in Hj. injection Hj as Hj. eapply Hu; eauto.
Qed.

(** Members held by value are never confused. *)
Lemma c31_union_ids_by_value : forall (uses : bool) (m : objects) id o l b st v t tm cur tb ids ms ig cb i mm x,
  program uses m -> m id = Some (true, o) -> inside l o = Some (XUni b st v t tm cur tb ids ms ig cb) ->
  forallb (fun mp => no_ref_s (snd mp)) ms = true ->
  nth_error ms i = Some (mm, Own x) ->
  find_id (id, l ++ [i])%list ids = Some i.
Proof.
  intros uses m id o l b st v t tm cur tb ids ms ig cb i mm x P Hm Hq Nr Hn.
  eapply (@c31_union_ids _ _ _ _ _ _ _ _ _ _ _ _ _ _ _ _ _ _ (Own x)); eauto.
  intros j m' s' Hj E. simpl in E. destruct s' as [y|p].
  - simpl in E. injection E as E. apply app_inv_head in E. congruence.
  - rewrite forallb_forall in Nr. apply nth_error_In in Hj. apply Nr in Hj. discriminate.
Qed.

(** Without that condition it is false: the same lvalue parser as two members of a
    union gets the id of the last one. *)
Definition alias_union : pobj :=
  let ms := [(mkM (SInt 1) false None, Ref (1, [])); (mkM (SInt 2) false None, Ref (1, []))] in
  let tb := register (0, []) 0 ms no_tables in
  XUni base0 false (VVar 0 (VTup [])) TyInt "" 0 tb (setup_ids tb (List.length ms)) ms ig0 None.

Lemma c31_alias_refuted :
  exists m tb ids ms b st v t tm cur ig cb,
    program false m /\ m 0 = Some (true, XUni b st v t tm cur tb ids ms ig cb) /\
    lookup (SInt 1) ms = Some 0 /\
    (exists p, find_key (SInt 1) (t_map tb) = Some p /\ find_id p ids = Some 1).
Proof.
  set (m1 := mem_set (fun _ => None) 1 (true, XObj base0 OPlain (VTup []) no_tables [] ig0 false None)).
  assert (P1 : program false m1).
  { eapply pr_step; [apply pr_start|]. eapply p_make; [reflexivity| |reflexivity].
    eapply make_obj with (xs := []) (rd := nowhere); [constructor|reflexivity|reflexivity]. }
  exists (mem_set m1 0 (true, alias_union)). unfold alias_union.
  do 11 eexists. split; [|split; [reflexivity|split; [reflexivity|eexists; split; reflexivity]]].
  eapply pr_step; [exact P1|]. eapply p_make; [reflexivity| |reflexivity].
  eapply make_uni with (rd := fun _ => PObj base0 OPlain (VTup []) [] ig0 false None)
                       (xs := [(mkM (SInt 1) false None, ARef (1, [])); (mkM (SInt 2) false None, ARef (1, []))]).
  - repeat econstructor.
  - reflexivity.
  - reflexivity.
Qed.

(** An array hands its elements to its own element parser. *)
Lemma c31_array_element : forall (uses : bool) (m : objects) id o l b sd st vals ptr e cb,
  program uses m -> m id = Some (true, o) -> inside l o = Some (XArr b sd st vals ptr e cb) ->
  ptr = Some (match e with Own _ => (id, l ++ [0])%list | Ref p => p end).
Proof.
  intros uses m id o l b sd st vals ptr e cb P Hm Hq.
  pose proof (@c31_pointers _ _ _ _ _ _ P Hm Hq) as H. simpl in H. destruct e; exact H.
Qed.

(** Constructors throw exactly for repeated names. *)
Lemma c31_constructor_throws : forall a fmtd ms, new_tables a 0 ms = None <-> dup_check fmtd ms <> None.
Proof. intros a fmtd ms. apply new_tables_dup. Qed.

(** Moving keeps everything that can be observed of a parser, and its declaration. *)
Lemma c31_move_keeps_state : forall rd a o,
  view_of (state rd (move a o)) = view_of (state rd o) /\
  schema_of (state rd (move a o)) = schema_of (state rd o).
Proof.
  intros rd a o. split; [apply same_state_view|apply same_state_schema]; apply move_state.
Qed.

Lemma c31_assign_keeps_state : forall rd a d s y, assign a d s = Some y ->
  view_of (state rd y) = view_of (state rd s) /\ schema_of (state rd y) = schema_of (state rd s).
Proof.
  intros rd a d s y H. split; [apply same_state_view|apply same_state_schema]; eapply assign_state; eauto.
Qed.

(** A parser that was put together from rvalues with any moves and assignments, and
    not used yet, treats every supported document as its declaration says. *)
Lemma c31_moved_parses : forall (m : objects) id live o (tk : tokenizer) g yerr P l M b bufs bs j st s,
  program false m -> m id = Some (live, o) -> no_ref o = true -> s = schema_of (state nowhere o) ->
  ApiProofs.content M (b :: bufs) = Some bs -> tokenize tk bs = (toks j, Some st) -> supported j s = true ->
  doc g yerr P M b bufs (start tk g (state nowhere o) l) = expected (den P j s l).
Proof.
  intros m id live o tk g yerr P l M b bufs bs j st s Pm Hm Nr Hs Hb Ht Hsup.
  rewrite (@program_untouched m Pm id live o Hm Nr), <- Hs.
  assert (Hr : reads g yerr s (start tk g (mk s) l) M b bufs j).
  { split; [apply h_new|]. split; [apply at_start_new|eauto]. }
  exact (c03_document_outcome P Hr Hsup).
Qed.
