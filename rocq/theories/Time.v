(** How many calls a token costs. *)

From Verif Require Import Spec Model Infra Total Safe Lock Depth.
Local Open Scope string_scope.
Set Implicit Arguments.

(** ** The calls that a call makes

    [calls_of E g rec c s] lists the recursive calls that the body of [c] makes in state [s], each
    with the state it is made in.  That none is missing is [calls_all]: the result of the
    body depends on the results of these calls only. *)
Section Calls.
Variable E : env.
Variable g : nat.
Variable rec : call -> mstate -> res.

(** internals/token_parser.cpp:42-44 and 50-52 *)
Definition pop_calls (d : option nat) (s : mstate) : list (call * mstate) :=
  match d with Some _ => [(CPop, s)] | None => [] end.

(** internals/array_parser.cpp:83-86 and 96-99 *)
Definition enter_calls (pi : path) (p : parser) (t : token) (s : mstate) : list (call * mstate) :=
  match p with
  | PArr b sd st vals e cb =>
      [(COn (pi ++ [Elem])%list t,
        push (upd s pi (set_not_empty (PArr b sd st vals (set_disp (b_disp b) e) cb))) (pi ++ [Elem])%list)]
  | _ => []
  end.

(** The functions [on()]: value.cpp:60-64, internals/array_parser.cpp:35-105, map.h:220-232,
    internals/key_value_parser.h:221-229, union.h:312-338, internals/ignore.cpp:34-90,
    internals/token_parser.cpp:47-53. *)
Definition on_calls (pi : path) (p : parser) (t : token) (s : mstate) : list (call * mstate) :=
  match p, t with
  | PArr b true st vals e cb, TNull => [(COn (pi ++ [Elem])%list TNull, s)]
  | _, TNull => pop_calls (disp_of p) (upd s pi (reset p))
  | PVal b ty v cb, TSc x =>
      if takes_scalar ty x then [(CEnd pi, upd s pi (PVal (mkB (b_disp b) (b_set b) false) ty (VSc x) cb))] else []
  | PArr b true st vals e cb, TSc x =>
      (COn (pi ++ [Elem])%list t, s) ::
      match rec (COn (pi ++ [Elem])%list t) s with
      | ROk s1 => match get pi (m_root s1) with Some p1 => [(CChild pi, upd s1 pi (set_not_empty p1))] | None => [] end
      | _ => []
      end
  | PArr b true st vals e cb, (TMapStart | TArrStart) => enter_calls pi p t s
  | PArr b _ st vals e cb, TArrEnd => [(CEnd pi, upd s pi (PArr b false st vals e cb))]
  | PMap _ _ _ _ _ _ _, TMapEnd | PObj _ _ _ _ _ _ _, TMapEnd | PUni _ _ _ _ _ _ _ _ _, TMapEnd => [(CEnd pi, s)]
  | PIgn i, TSc _ => match ig_st i with [] => [(CEnd pi, s)] | _ => [] end
  | PIgn i, TMapEnd => match ig_st i with [StObj] => [(CEnd pi, upd s pi (PIgn (mkI (ig_b i) [])))] | _ => [] end
  | PIgn i, TArrEnd => match ig_st i with [StArr] => [(CEnd pi, upd s pi (PIgn (mkI (ig_b i) [])))] | _ => [] end
  | _, _ => []
  end.

Definition call_calls (c : call) (s : mstate) : list (call * mstate) :=
  match c with
  | CPop =>                                          (* internals/dispatcher.cpp:38-47 *)
      match m_stack s with _ :: q :: r => [(CChild q, set_stack s (q :: r))] | _ => [] end
  | CDisp t =>                                       (* internals/dispatcher.h:51-56 *)
      match m_stack s with q :: _ => [(COn q t, s)] | [] => [] end
  | COn pi t => match get pi (m_root s) with Some p => on_calls pi p t s | None => [] end
  | CEnd pi =>                                       (* internals/token_parser.cpp:38-45 *)
      match get pi (m_root s) with
      | Some p =>
          match finish E pi (upd s pi (set_set true p)) with
          | ROk s2 => match get pi (m_root s2) with Some p2 => pop_calls (disp_of p2) s2 | None => [] end
          | _ => []
          end
      | None => []
      end
  | CChild pi =>                                     (* union.h:341-348; the others call nothing *)
      match get pi (m_root s) with
      | Some (PUni _ _ _ _ tm _ _ _ _) =>
          (CEnd pi, s) ::
          match rec (CEnd pi) s with
          | ROk s1 => if String.eqb tm "" then [(CDisp TMapEnd, s1)] else []
          | _ => []
          end
      | _ => []
      end
  end.
End Calls.

Definition calls_of (E : env) (g : nat) (rec : call -> mstate -> res) (c : call) (s : mstate) : list (call * mstate) :=
  match e_alloc E c s with
  | None => call_calls E rec c s
  | Some (FAt k x) => match nth_error (faults g c s) k with Some _ => [] | None => call_calls E rec c s end
  | Some (FStore x) => call_calls (store_fails E x) rec c s
  end.

Lemma call_calls_all E g (rec1 rec2 : call -> mstate -> res) c s :
  (forall c' s', In (c', s') (call_calls E rec1 c s) -> rec1 c' s' = rec2 c' s') ->
  call_body E g rec1 c s = call_body E g rec2 c s.
Proof.
  assert (Hpop : forall d s', (forall c' s'', In (c', s'') (pop_calls d s') -> rec1 c' s'' = rec2 c' s'') ->
    pop_if_disp g rec1 d s' = pop_if_disp g rec2 d s').
  { intros d s' H. unfold pop_if_disp. destruct d; auto. rewrite (H CPop s'); auto. left. reflexivity. }
  destruct c as [|t|pi t|pi|pi]; cbn [call_body call_calls]; intros H.
  - unfold body_pop. destruct (m_stack s) as [|q [|q' r]]; auto. apply H. left. reflexivity.
  - unfold body_disp. destruct (m_stack s) as [|q r]; auto. apply H. left. reflexivity.
  - unfold body_on, at_node. destruct (get pi (m_root s)) as [p|] eqn:Hg; auto.
    assert (Hnull : forall p, disp_of p = disp_of p -> (forall c' s', In (c', s') (pop_calls (disp_of p) (upd s pi (reset p))) -> rec1 c' s' = rec2 c' s') ->
      on_null g rec1 pi p s = on_null g rec2 pi p s).
    { intros q _ Hq. unfold on_null. apply Hpop. exact Hq. }
    destruct p as [b ty v cb|b sd st vals e cb|b st key vals e ecb cb|b k v ms ig ign cb|b st v ty tm cur ms ig cb|i]; cbn [on_calls] in H.
    + destruct t; auto; unfold on_val; auto. destruct (takes_scalar ty x); auto. apply H. left. reflexivity.
    + destruct t; unfold on_arr; auto.
      * destruct sd; auto. apply H. left. reflexivity.
      * destruct sd; auto. rewrite <- (H _ _ (or_introl eq_refl)). destruct (rec1 (COn (pi ++ [Elem])%list (TSc x)) s) as [s1|y s1|u|]; auto.
        cbn [bind]. unfold at_node. destruct (get pi (m_root s1)) as [p1|]; auto. apply H. right. left. reflexivity.
      * destruct sd; auto. unfold arr_enter. f_equal. apply H. left. reflexivity.
      * destruct sd; auto. unfold arr_enter. f_equal. apply H. left. reflexivity.
      * apply H. destruct sd; left; reflexivity.
    + destruct t; auto; unfold on_map; auto. apply H. left. reflexivity.
    + destruct t; auto; unfold on_obj; auto. apply H. left. reflexivity.
    + destruct t; auto; unfold on_uni; auto. apply H. left. reflexivity.
    + destruct t; unfold on_ign; auto.
      * destruct (ig_st i); auto. apply H. left. reflexivity.
      * destruct (ig_st i) as [|[] [|y r]]; auto. apply H. left. reflexivity.
      * destruct (ig_st i) as [|[] [|y r]]; auto. apply H. left. reflexivity.
  - unfold body_end, at_node. destruct (get pi (m_root s)) as [p|]; auto.
    destruct (finish E pi (upd s pi (set_set true p))) as [s2|x s2|u|]; auto. cbn [bind]. destruct (get pi (m_root s2)); auto.
  - unfold body_child, at_node. destruct (get pi (m_root s)) as [[]|]; auto.
    rewrite <- (H _ _ (or_introl eq_refl)). destruct (rec1 (CEnd pi) s) as [s1|x s1|u|]; auto. cbn [bind].
    destruct (String.eqb tm ""); auto. destruct (get pi (m_root s1)) as [p1|]; auto. unfold deref. destruct (disp_of p1); auto. destruct (Nat.eqb n g); auto.
    apply H. right. left. reflexivity.
Qed.

(** No call is missing. *)
Theorem calls_all E g (rec1 rec2 : call -> mstate -> res) c s :
  (forall c' s', In (c', s') (calls_of E g rec1 c s) -> rec1 c' s' = rec2 c' s') ->
  body E g rec1 c s = body E g rec2 c s.
Proof.
  unfold body, calls_of. destruct (e_alloc E c s) as [[k x|x]|]; auto using call_calls_all.
  destruct (nth_error (faults g c s) k); auto using call_calls_all.
Qed.

(** ** The number of calls *)

Definition sum (l : list nat) : nat := fold_right Nat.add 0 l.

(** The call itself, the calls it makes, and so on. *)
Fixpoint total (E : env) (g : nat) (fuel : nat) (c : call) (s : mstate) : nat :=
  match fuel with
  | O => 0
  | S f => S (sum (map (fun x => total E g f (fst x) (snd x)) (calls_of E g (exec E g f) c s)))
  end.

(** For the tokens of a text, until an exception stops it. *)
Fixpoint total_run (E : env) (g : nat) (ts : list token) (s : mstate) : nat :=
  match ts with
  | [] => 0
  | t :: ts' =>
      total E g (fuel_for s) (CDisp t) s +
      match dispatch E g t s with ROk s' => total_run E g ts' s' | _ => 0 end
  end.

(** ** Bounds *)

Definition left_in (r : res) : nat :=
  match r with ROk s | RThrow _ s => List.length (m_stack s) | _ => 0 end.

Definition price (c : call) (s : mstate) : nat :=
  match c with
  | CPop => 1
  | CEnd _ => 2
  | CChild _ => 7
  | COn _ TMapEnd => 3
  | CDisp TMapEnd => 4
  | COn pi _ => match get pi (m_root s) with Some p => 8 * height p | None => 1 end
  | CDisp _ => S (8 * height (m_root s))
  end.

Section Bounds.
Variable g : nat.

Section Step.
Variable E : env.
Variable rec : call -> mstate -> res.
Variable crec : call -> mstate -> nat.
Hypothesis HR : forall c s, crec c s + 7 * left_in (rec c s) <= 7 * List.length (m_stack s) + price c s.

Definition spent (l : list (call * mstate)) : nat := sum (map (fun x => crec (fst x) (snd x)) l).

Lemma left_quiet s r : quiet s r -> left_in r <= List.length (m_stack s).
Proof. destruct r; simpl; try lia; intros ->; lia. Qed.

Lemma pop_price d s : spent (pop_calls d s) + 7 * left_in (pop_if_disp g rec d s) <= 7 * List.length (m_stack s) + 1.
Proof.
  unfold pop_if_disp, pop_calls, spent. destruct d as [x|]; cbn [map fst snd sum fold_right left_in]; [|lia].
  pose proof (HR CPop s) as H. cbn [price] in H. unfold deref. destruct (Nat.eqb x g); cbn [left_in]; lia.
Qed.

Lemma call_price c s :
  S (spent (call_calls E rec c s)) + 7 * left_in (call_body E g rec c s) <= 7 * List.length (m_stack s) + price c s.
Proof.
  destruct c as [|t|pi t|pi|pi]; cbn [call_body call_calls].
  - unfold body_pop. destruct (m_stack s) as [|q [|q' r]] eqn:Hs; cbn [spent map sum fold_right left_in price set_stack m_stack List.length fst snd]; try rewrite Hs; cbn [List.length]; try lia.
    unfold spent. cbn [map sum fold_right fst snd]. pose proof (HR (CChild q') (set_stack s (q' :: r))) as H. cbn [price m_stack set_stack List.length] in H. lia.
  - unfold body_disp. destruct (m_stack s) as [|q r] eqn:Hs.
    + cbn [spent map sum fold_right left_in List.length]. unfold spent. cbn [map sum fold_right]. rewrite Hs. cbn [List.length]. destruct t; cbn [price]; lia.
    + unfold spent. cbn [map sum fold_right fst snd]. rewrite <- Hs. pose proof (HR (COn q t) s) as H.
      assert (Hp : S (price (COn q t) s) <= price (CDisp t) s).
      { destruct t; cbn [price]; try lia; destruct (get q (m_root s)) as [p|] eqn:Hg; try apply get_height in Hg; pose proof (height_pos (m_root s)); lia. }
      lia.
  - unfold body_on, at_node. destruct (get pi (m_root s)) as [p|] eqn:Hg.
    2: { cbn [spent map sum fold_right left_in]. unfold spent. cbn. destruct t; rewrite ?Hg; lia. }
    assert (Hh := height_pos p).
    assert (Hpr : price (COn pi t) s = match t with TMapEnd => 3 | _ => 8 * height p end) by (cbn [price]; rewrite Hg; destruct t; reflexivity).
    rewrite Hpr. clear Hpr.
    assert (Hnull : forall p, S (spent (pop_calls (disp_of p) (upd s pi (reset p)))) + 7 * left_in (on_null g rec pi p s) <= 7 * List.length (m_stack s) + 2).
    { intros q. unfold on_null. pose proof (pop_price (disp_of q) (upd s pi (reset q))) as H. cbn [upd m_stack] in H. lia. }
    assert (Hend : forall q, S (spent [(CEnd pi, upd s pi q)]) + 7 * left_in (rec (CEnd pi) (upd s pi q)) <= 7 * List.length (m_stack s) + 3).
    { intros q. unfold spent. cbn [map sum fold_right fst snd]. pose proof (HR (CEnd pi) (upd s pi q)) as H. cbn [price upd m_stack] in H. lia. }
    assert (Hend' : S (spent [(CEnd pi, s)]) + 7 * left_in (rec (CEnd pi) s) <= 7 * List.length (m_stack s) + 3).
    { unfold spent. cbn [map sum fold_right fst snd]. pose proof (HR (CEnd pi) s) as H. cbn [price upd m_stack] in H. lia. }
    assert (Hmem : forall A p1 (ms : list (mspec * A)) ign nm s1, List.length (m_stack s1) = List.length (m_stack s) ->
      left_in (on_member E g pi p1 ms ign nm s1) <= S (List.length (m_stack s))).
    { intros A p1 ms ign nm s1 <-. unfold on_member, deref, push. destruct (lookup nm ms); [|destruct ign]; try (destruct (disp_of p1) as [d|]; [destruct (Nat.eqb d g)|]); cbn [left_in m_stack upd set_stack List.length]; lia. }
    assert (Hnil : spent [] = 0) by reflexivity.
    destruct p as [b ty v cb|b sd st vals e cb|b st key vals e ecb cb|b k v ms ig ign cb|b st v ty tm cur ms ig cb|i].
    + destruct t; cbn [on_calls]; unfold on_val, throw_unexpected; rewrite ?Hnil; cbn [left_in]; try lia.
      * pose proof (Hnull (PVal b ty v cb)). cbn [on_calls] in *. lia.
      * destruct (takes_scalar ty x); [|rewrite Hnil; cbn [left_in]; lia]. pose proof (Hend (PVal (mkB (b_disp b) (b_set b) false) ty (VSc x) cb)). lia.
    + assert (Hge : get (pi ++ [Elem])%list (m_root s) = Some e) by (rewrite get_app, Hg; reflexivity).
      assert (Hhe : height (PArr b sd st vals e cb) = S (height e)) by reflexivity.
      assert (Hent : (t = TMapStart \/ t = TArrStart) -> S (spent (enter_calls pi (PArr b sd st vals e cb) t s)) + 7 * left_in (arr_enter g rec pi (PArr b sd st vals e cb) t s) <=
        7 * List.length (m_stack s) + 8 * height (PArr b sd st vals e cb)).
      { intros Ht. unfold arr_enter, enter_calls, spent. cbn [map sum fold_right fst snd].
        set (s1 := push (upd s pi (set_not_empty (PArr b sd st vals (set_disp (b_disp b) e) cb))) (pi ++ [Elem])%list).
        pose proof (HR (COn (pi ++ [Elem])%list t) s1) as H.
        assert (Hp1 : price (COn (pi ++ [Elem])%list t) s1 = 8 * height e).
        { assert (Hge1 : get (pi ++ [Elem])%list (m_root s1) = Some (set_disp (b_disp b) e)).
          { unfold s1, push. cbn [upd set_stack m_root]. rewrite get_app. erewrite get_put_same; [|exact Hg|]; reflexivity. }
          destruct Ht as [->| ->]; cbn [price]; rewrite Hge1, height_set_disp; reflexivity. }
        rewrite Hp1 in H. assert (Hl1 : List.length (m_stack s1) = S (List.length (m_stack s))) by reflexivity. rewrite Hl1 in H.
        rewrite Hhe. unfold deref. destruct (b_disp b) as [d|]; [destruct (Nat.eqb d g)|]; cbn [left_in]; lia. }
      assert (Hsub : forall t', t' <> TMapEnd -> crec (COn (pi ++ [Elem])%list t') s + 7 * left_in (rec (COn (pi ++ [Elem])%list t') s) <= 7 * List.length (m_stack s) + 8 * height e).
      { intros t' Ht. pose proof (HR (COn (pi ++ [Elem])%list t') s) as H. cbn [price] in H. rewrite Hge in H. destruct t'; try congruence; exact H. }
      destruct t; unfold on_arr, throw_unexpected.
      * destruct sd; cbn [on_calls].
        -- unfold spent. cbn [map sum fold_right fst snd]. specialize (Hsub TNull ltac:(discriminate)). lia.
        -- pose proof (Hnull (PArr b false st vals e cb)). lia.
      * destruct sd; cbn [on_calls]; [|rewrite Hnil; cbn [left_in]; lia].
        specialize (Hsub (TSc x) ltac:(discriminate)). unfold spent. cbn [map sum fold_right fst snd].
        destruct (rec (COn (pi ++ [Elem])%list (TSc x)) s) as [s1|y s1|u|]; cbn [bind left_in map sum fold_right] in *; try lia.
        unfold at_node. destruct (get pi (m_root s1)) as [p1|]; cbn [left_in map sum fold_right fst snd]; try lia.
        pose proof (HR (CChild pi) (upd s1 pi (set_not_empty p1))) as H. cbn [price upd m_stack] in H. lia.
      * destruct sd; cbn [on_calls]; [|rewrite Hnil; cbn [left_in]; lia]. apply Hent. auto.
      * cbn [on_calls]. destruct sd; rewrite Hnil; cbn [left_in]; lia.
      * cbn [on_calls]. destruct sd; rewrite Hnil; cbn [left_in]; lia.
      * destruct sd; cbn [on_calls]; [apply Hent; auto|]. rewrite Hnil. cbn [reset left_in m_stack upd]. lia.
      * pose proof (Hend (PArr b false st vals e cb)). cbn [on_calls]. destruct sd; lia.
    + destruct t; cbn [on_calls]; unfold on_map, throw_unexpected; rewrite ?Hnil; cbn [left_in m_stack upd]; try lia.
      * pose proof (Hnull (PMap b st key vals e ecb cb)). cbn [on_calls] in *. lia.
      * unfold deref, push. destruct (b_disp b) as [d|]; [destruct (Nat.eqb d g)|]; cbn [left_in m_stack upd set_stack List.length]; lia.
    + destruct t; cbn [on_calls]; unfold on_obj, throw_unexpected; rewrite ?Hnil; cbn [left_in m_stack upd]; try lia.
      * pose proof (Hnull (PObj b k v ms ig ign cb)). cbn [on_calls] in *. lia.
      * pose proof (Hmem parser (PObj b k v ms ig ign cb) ms ign (SStr k0) s eq_refl). lia.
    + destruct t; cbn [on_calls]; unfold on_uni, throw_unexpected; rewrite ?Hnil; cbn [left_in m_stack upd]; try lia.
      * pose proof (Hnull (PUni b st v ty tm cur ms ig cb)). cbn [on_calls] in *. lia.
      * destruct (takes_scalar ty x); [|cbn [left_in]; lia].
        set (p1 := reset (PUni b st v ty tm cur ms ig cb)). pose proof (Hmem parser p1 ms false x (upd s pi p1) eq_refl) as H.
        destruct (on_member E g pi p1 ms false x (upd s pi p1)) as [s2|y s2|u|]; cbn [bind left_in] in *; try lia.
        unfold at_node. destruct (get pi (m_root s2)) as [p2|]; cbn [left_in]; try lia.
        destruct p2; try (cbn [left_in]; lia). destruct (lookup x ms); cbn [left_in m_stack upd]; lia.
      * destruct (String.eqb tm ""); cbn [left_in m_stack upd]; lia.
      * destruct (String.eqb tm ""); [|destruct (String.eqb k tm)]; cbn [left_in m_stack upd]; lia.
    + destruct t; cbn [on_calls]; unfold on_ign, throw_unexpected; rewrite ?Hnil; cbn [left_in m_stack upd]; try lia.
      * pose proof (Hnull (PIgn i)). cbn [on_calls] in *. lia.
      * destruct (ig_st i); [|rewrite ?Hnil; cbn [left_in]; lia]. lia.
      * destruct (ig_st i); rewrite ?Hnil; cbn [left_in]; try lia. destruct s0; cbn [left_in]; lia.
      * destruct (ig_st i) as [|[] [|y r]]; rewrite ?Hnil; cbn [left_in m_stack upd]; try lia.
        pose proof (Hend (PIgn (mkI (ig_b i) []))). lia.
      * destruct (ig_st i) as [|[] [|y r]]; rewrite ?Hnil; cbn [left_in m_stack upd]; try lia.
        pose proof (Hend (PIgn (mkI (ig_b i) []))). lia.
  - unfold body_end, at_node. cbn [price]. destruct (get pi (m_root s)) as [p|]; [|unfold spent; cbn; lia].
    pose proof (finish_quiet E pi (upd s pi (set_set true p))) as Hq.
    destruct (finish E pi (upd s pi (set_set true p))) as [s2|x s2|u|]; cbn [bind quiet upd m_stack] in *.
    + rewrite <- Hq. destruct (get pi (m_root s2)) as [p2|]; [|unfold spent; cbn; lia]. pose proof (pop_price (disp_of p2) s2). lia.
    + rewrite <- Hq. unfold spent. cbn. lia.
    + unfold spent. cbn. lia.
    + contradiction.
  - unfold body_child, at_node. cbn [price].
    assert (Hnil : spent [] = 0) by reflexivity.
    destruct (get pi (m_root s)) as [p|]; [|rewrite Hnil; cbn [left_in]; lia].
    destruct p as [b ty v cb|b sd st vals e cb|b st key vals e ecb cb|b k v ms ig ign cb|b st v ty tm cur ms ig cb|i]; rewrite ?Hnil; cbn [left_in]; try lia.
    + destruct st; [destruct (pop_value e) as [[v e']|]; [destruct (e_store E v)|]|]; cbn [left_in m_stack upd]; lia.
    + pose proof (@run_cb_quiet E ecb (AElem key e) (pops_eff (pi ++ [Elem])%list) e_ecb_false s (pops_eff_stack _)) as Hq.
      destruct (run_cb E ecb (AElem key e) (pops_eff (pi ++ [Elem])%list) e_ecb_false s) as [s1|x s1|u|]; cbn [bind quiet left_in] in *; try rewrite Hq; try lia.
      rewrite <- Hq. destruct st; [|cbn [left_in]; lia]. destruct (get pi (m_root s1)) as [[]|]; cbn [left_in]; try lia.
      destruct (pop_value e0) as [[v e']|]; [destruct (e_store E v)|]; cbn [left_in m_stack upd]; lia.
    + unfold spent. cbn [map sum fold_right fst snd]. pose proof (HR (CEnd pi) s) as H. cbn [price] in H.
      destruct (rec (CEnd pi) s) as [s1|x s1|u|]; cbn [bind left_in map sum fold_right fst snd] in *; try lia.
      destruct (String.eqb tm ""); cbn [map sum fold_right fst snd left_in]; [|lia].
      pose proof (HR (CDisp TMapEnd) s1) as H2. cbn [price] in H2.
      destruct (get pi (m_root s1)) as [p1|]; cbn [left_in]; [|lia]. unfold deref. destruct (disp_of p1) as [d|]; [destruct (Nat.eqb d g)|]; cbn [left_in]; lia.
Qed.
End Step.

Lemma faults_stack c s s' : In s' (faults g c s) -> 1 + 7 * List.length (m_stack s') <= 7 * List.length (m_stack s) + price c s.
Proof.
  destruct c as [|t|pi t|pi|pi]; try contradiction. cbn [faults price].
  destruct (get pi (m_root s)) as [p|]; try contradiction. pose proof (height_pos p) as Hh. intros Hin.
  assert (Hl : List.length (m_stack s') <= S (List.length (m_stack s)) /\ t <> TMapEnd); [|destruct Hl as [Hl Ht]; destruct t; try congruence; lia].
  destruct p; try contradiction; destruct t; try contradiction; (split; [|discriminate]);
    repeat match type of Hin with context [if ?x then _ else _] => destruct x | context [lookup ?a ?b] => destruct (lookup a b) end;
    unfold live in Hin; try destruct (b_disp b) as [d|]; try destruct (Nat.eqb d g); simpl in Hin; intuition (subst; simpl; lia).
Qed.

Theorem total_price E f : forall c s, total E g f c s + 7 * left_in (exec E g f c s) <= 7 * List.length (m_stack s) + price c s.
Proof.
  induction f as [|f IH]; intros c s; [simpl; lia|]. cbn [total exec].
  pose proof (fun E' => @call_price E' (exec E g f) (total E g f) IH c s) as H. unfold spent in H.
  unfold body, calls_of. destruct (e_alloc E c s) as [[k x|x]|]; auto. destruct (nth_error (faults g c s) k) as [s'|] eqn:Hk; auto.
  cbn [map sum fold_right left_in]. apply nth_error_In in Hk. apply faults_stack in Hk. exact Hk.
Qed.

(** *** Callbacks: at most one in each call *)
Definition told_in (r : res) : nat :=
  match r with ROk s | RThrow _ s => List.length (m_log s) | _ => 0 end.

Lemma run_cb_told E c a eff msg s : (forall o s, m_log (eff o s) = m_log s) -> told_in (run_cb E c a eff msg s) <= S (List.length (m_log s)).
Proof.
  intros He. unfold run_cb. destruct c as [c|]; [|simpl; lia].
  destruct (co_res _); cbn [told_in]; rewrite away_log, He; cbn [add_log m_log]; rewrite app_length; simpl; lia.
Qed.

Lemma finish_told E pi s : told_in (finish E pi s) <= S (List.length (m_log s)).
Proof.
  assert (H1 : forall o s, m_log (no_eff o s) = m_log s) by reflexivity.
  assert (H2 : forall pi o s, m_log (pops_eff pi o s) = m_log s) by (intros; unfold pops_eff; destruct (get _ _); reflexivity).
  assert (H3 : forall pi o s, m_log (cust_eff pi o s) = m_log s) by (intros; unfold cust_eff; destruct (get _ _) as [[]|]; reflexivity).
  assert (Hr : forall c a eff msg s0, m_log s0 = m_log s -> (forall o s, m_log (eff o s) = m_log s) -> told_in (run_cb E c a eff msg s0) <= S (List.length (m_log s))).
  { intros c a eff msg s0 E0 He. rewrite <- E0. apply run_cb_told; auto. }
  unfold finish, at_node. destruct (get pi (m_root s)) as [[]|]; cbn [told_in]; try lia; auto.
  - destruct store; auto.
  - destruct (b_empty b); [cbn [told_in upd m_log]; lia|]. destruct k; [destruct (check_members E ms)|destruct (set_values E ms) as [ms' [x|vs]]|destruct (check_members E ms)]; auto; cbn [told_in upd m_log]; lia.
  - destruct (b_empty b); [cbn [told_in upd m_log]; lia|]. destruct store; [destruct (uni_set_value E cur ms) as [ms' [x|o]]|destruct (uni_check cur ms)]; auto; cbn [told_in upd m_log]; lia.
Qed.

Section Told.
Variable E : env.
Variable rec : call -> mstate -> res.
Variable crec : call -> mstate -> nat.
Hypothesis HT : forall c s, told_in (rec c s) <= List.length (m_log s) + crec c s.
Notation spent0 := (spent crec).

Lemma pop_told d s : told_in (pop_if_disp g rec d s) <= List.length (m_log s) + spent0 (pop_calls d s).
Proof.
  unfold pop_if_disp, pop_calls, spent. destruct d as [x|]; cbn [map fst snd sum fold_right told_in]; [|lia].
  pose proof (HT CPop s) as H. unfold deref. destruct (Nat.eqb x g); cbn [told_in]; lia.
Qed.

Lemma call_told c s : told_in (call_body E g rec c s) <= List.length (m_log s) + S (spent0 (call_calls E rec c s)).
Proof.
  assert (Hnil : spent0 [] = 0) by reflexivity.
  assert (Hone : forall c s, spent0 [(c, s)] = crec c s + 0) by reflexivity.
  destruct c as [|t|pi t|pi|pi]; cbn [call_body call_calls].
  - unfold body_pop. destruct (m_stack s) as [|q [|q' r]]; rewrite ?Hnil, ?Hone; cbn [told_in set_stack m_log]; try lia.
    pose proof (HT (CChild q') (set_stack s (q' :: r))) as H. cbn [set_stack m_log] in *. lia.
  - unfold body_disp. destruct (m_stack s) as [|q r]; rewrite ?Hnil, ?Hone; cbn [told_in]; [lia|]. pose proof (HT (COn q t) s). lia.
  - unfold body_on, at_node. destruct (get pi (m_root s)) as [p|]; [|cbn [told_in]; lia].
    assert (Hnull : forall p, told_in (on_null g rec pi p s) <= List.length (m_log s) + S (spent0 (pop_calls (disp_of p) (upd s pi (reset p))))).
    { intros q. unfold on_null. pose proof (pop_told (disp_of q) (upd s pi (reset q))) as H. cbn [upd m_log] in H. lia. }
    assert (Hend : forall q, told_in (rec (CEnd pi) (upd s pi q)) <= List.length (m_log s) + S (spent0 [(CEnd pi, upd s pi q)])).
    { intros q. rewrite Hone. pose proof (HT (CEnd pi) (upd s pi q)) as H. cbn [upd m_log] in H. lia. }
    assert (Hend' : told_in (rec (CEnd pi) s) <= List.length (m_log s) + S (spent0 [(CEnd pi, s)])).
    { rewrite Hone. pose proof (HT (CEnd pi) s) as H. lia. }
    assert (Hmem : forall A p1 (ms : list (mspec * A)) ign nm s1, m_log s1 = m_log s ->
      told_in (on_member E g pi p1 ms ign nm s1) <= List.length (m_log s)).
    { intros A p1 ms ign nm s1 <-. unfold on_member, deref, push. destruct (lookup nm ms); [|destruct ign]; try (destruct (disp_of p1) as [d|]; [destruct (Nat.eqb d g)|]); cbn [told_in m_log upd set_stack]; lia. }
    destruct p as [b ty v cb|b sd st vals e cb|b st key vals e ecb cb|b k v ms ig ign cb|b st v ty tm cur ms ig cb|i].
    + destruct t; cbn [on_calls]; unfold on_val, throw_unexpected; cbn [told_in]; auto; try lia. destruct (takes_scalar ty x); cbn [told_in]; auto; lia.
    + assert (Hent : told_in (arr_enter g rec pi (PArr b sd st vals e cb) t s) <= List.length (m_log s) + S (spent0 (enter_calls pi (PArr b sd st vals e cb) t s))).
      { unfold arr_enter, enter_calls. rewrite Hone. set (s1 := push _ _). pose proof (HT (COn (pi ++ [Elem])%list t) s1) as H. assert (E1 : m_log s1 = m_log s) by reflexivity. rewrite E1 in H.
        unfold deref. destruct (b_disp b) as [d|]; [destruct (Nat.eqb d g)|]; cbn [told_in]; lia. }
      destruct t; unfold on_arr, throw_unexpected; destruct sd; cbn [on_calls told_in]; auto; try lia.
      * rewrite Hone. pose proof (HT (COn (pi ++ [Elem])%list TNull) s). lia.
      * unfold spent. cbn [map sum fold_right fst snd]. pose proof (HT (COn (pi ++ [Elem])%list (TSc x)) s) as H.
        destruct (rec (COn (pi ++ [Elem])%list (TSc x)) s) as [s1|y s1|u|]; cbn [bind told_in map sum fold_right] in *; try lia.
        unfold at_node. destruct (get pi (m_root s1)) as [p1|]; cbn [told_in map sum fold_right fst snd]; try lia.
        pose proof (HT (CChild pi) (upd s1 pi (set_not_empty p1))) as H2. cbn [upd m_log] in H2. lia.
      * cbn [reset told_in upd m_log]. lia.
    + destruct t; cbn [on_calls]; unfold on_map, throw_unexpected; cbn [told_in upd m_log]; auto; try lia.
      unfold deref, push. destruct (b_disp b) as [d|]; [destruct (Nat.eqb d g)|]; cbn [told_in m_log upd set_stack]; lia.
    + destruct t; cbn [on_calls]; unfold on_obj, throw_unexpected; cbn [told_in upd m_log]; auto; try lia.
      pose proof (Hmem parser (PObj b k v ms ig ign cb) ms ign (SStr k0) s eq_refl). lia.
    + destruct t; cbn [on_calls]; unfold on_uni, throw_unexpected; cbn [told_in upd m_log]; auto; try lia.
      * destruct (takes_scalar ty x); [|cbn [told_in]; lia].
        set (p1 := reset (PUni b st v ty tm cur ms ig cb)). pose proof (Hmem parser p1 ms false x (upd s pi p1) eq_refl) as H.
        destruct (on_member E g pi p1 ms false x (upd s pi p1)) as [s2|y s2|u|]; cbn [bind told_in] in *; try lia.
        unfold at_node. destruct (get pi (m_root s2)) as [p2|]; cbn [told_in]; try lia.
        destruct p2; try (cbn [told_in]; lia). destruct (lookup x ms); cbn [told_in m_log upd]; lia.
      * destruct (String.eqb tm ""); cbn [told_in m_log upd]; lia.
      * destruct (String.eqb tm ""); [|destruct (String.eqb k tm)]; cbn [told_in m_log upd]; lia.
    + destruct t; cbn [on_calls]; unfold on_ign, throw_unexpected; cbn [told_in upd m_log]; auto; try lia.
      * destruct (ig_st i); cbn [told_in]; auto; lia.
      * destruct (ig_st i) as [|[] r]; cbn [told_in]; lia.
      * destruct (ig_st i) as [|[] [|y r]]; cbn [told_in upd m_log]; auto; lia.
      * destruct (ig_st i) as [|[] [|y r]]; cbn [told_in upd m_log]; auto; lia.
  - unfold body_end, at_node. destruct (get pi (m_root s)) as [p|]; [|cbn [told_in]; lia].
    pose proof (finish_told E pi (upd s pi (set_set true p))) as Hq. cbn [upd m_log] in Hq.
    destruct (finish E pi (upd s pi (set_set true p))) as [s2|x s2|u|]; cbn [bind told_in] in *; try lia.
    destruct (get pi (m_root s2)) as [p2|]; [|cbn [told_in]; lia]. pose proof (pop_told (disp_of p2) s2). lia.
  - unfold body_child, at_node. destruct (get pi (m_root s)) as [p|]; [|cbn [told_in]; lia].
    destruct p as [b ty v cb|b sd st vals e cb|b st key vals e ecb cb|b k v ms ig ign cb|b st v ty tm cur ms ig cb|i]; cbn [told_in]; try lia.
    + destruct st; [destruct (pop_value e) as [[v e']|]; [destruct (e_store E v)|]|]; cbn [told_in m_log upd]; lia.
    + assert (H2 : forall o s, m_log (pops_eff (pi ++ [Elem])%list o s) = m_log s) by (intros; unfold pops_eff; destruct (get _ _); reflexivity).
      pose proof (@run_cb_told E ecb (AElem key e) (pops_eff (pi ++ [Elem])%list) e_ecb_false s H2) as Hq.
      destruct (run_cb E ecb (AElem key e) (pops_eff (pi ++ [Elem])%list) e_ecb_false s) as [s1|x s1|u|]; cbn [bind told_in] in *; try lia.
      destruct st; [|cbn [told_in]; lia]. destruct (get pi (m_root s1)) as [[]|]; cbn [told_in]; try lia.
      destruct (pop_value e0) as [[v e']|]; [destruct (e_store E v)|]; cbn [told_in m_log upd]; lia.
    + unfold spent. cbn [map sum fold_right fst snd]. pose proof (HT (CEnd pi) s) as H.
      destruct (rec (CEnd pi) s) as [s1|x s1|u|]; cbn [bind told_in map sum fold_right fst snd] in *; try lia.
      destruct (String.eqb tm ""); cbn [map sum fold_right fst snd told_in]; [|lia].
      pose proof (HT (CDisp TMapEnd) s1) as H2.
      destruct (get pi (m_root s1)) as [p1|]; cbn [told_in]; [|lia]. unfold deref. destruct (disp_of p1) as [d|]; [destruct (Nat.eqb d g)|]; cbn [told_in]; lia.
Qed.
End Told.

Theorem total_told E f : forall c s, told_in (exec E g f c s) <= List.length (m_log s) + total E g f c s.
Proof.
  induction f as [|f IH]; intros c s; [simpl; lia|]. cbn [total exec].
  pose proof (fun E' => @call_told E' (exec E g f) (total E g f) IH c s) as H. unfold spent in H.
  unfold body, calls_of. destruct (e_alloc E c s) as [[k x|x]|]; auto. destruct (nth_error (faults g c s) k) as [s'|] eqn:Hk; auto.
  cbn [map sum fold_right told_in]. apply nth_error_In in Hk. rewrite (@faults_log g c s s' Hk). lia.
Qed.
End Bounds.

(** ** A text *)
Lemma total_run_bound E g ts : forall s,
  total_run E g ts s + 7 * left_in (run E g ts s) <= 7 * List.length (m_stack s) + List.length ts * S (8 * height (m_root s)).
Proof.
  induction ts as [|t ts IH]; intros s; cbn [total_run run List.length]; [cbn [left_in]; lia|].
  pose proof (total_price g E (fuel_for s) (CDisp t) s) as H. pose proof (exec_le E g (fuel_for s) (CDisp t) s) as Hle.
  assert (Hp : price (CDisp t) s <= S (8 * height (m_root s))) by (destruct t; cbn [price]; pose proof (height_pos (m_root s)); lia).
  unfold dispatch. destruct (exec E g (fuel_for s) (CDisp t) s) as [s1|x s1|u|]; cbn [bind left_in Lock.lex] in *; try lia.
  specialize (IH s1). rewrite <- (le_height Hle) in IH. lia.
Qed.

Lemma told_run E g ts : forall s, told_in (run E g ts s) <= List.length (m_log s) + total_run E g ts s.
Proof.
  induction ts as [|t ts IH]; intros s; cbn [total_run run]; [cbn [told_in]; lia|].
  pose proof (total_told g E (fuel_for s) (CDisp t) s) as H.
  unfold dispatch. destruct (exec E g (fuel_for s) (CDisp t) s) as [s1|x s1|u|]; cbn [bind told_in] in *; try lia.
  specialize (IH s1). lia.
Qed.
