(** Induction principles and lemmas on paths. *)

From Verif Require Import Model.
Set Implicit Arguments.

Section ParserInd.
  Variable P : parser -> Prop.
  Hypothesis HV : forall b t v cb, P (PVal b t v cb).
  Hypothesis HA : forall b sd st vals e cb, P e -> P (PArr b sd st vals e cb).
  Hypothesis HM : forall b st key vals e ecb cb, P e -> P (PMap b st key vals e ecb cb).
  Hypothesis HO : forall b k v ms ig ign cb,
      Forall (fun mp => P (snd mp)) ms -> P (PObj b k v ms ig ign cb).
  Hypothesis HU : forall b st v t tm cur ms ig cb,
      Forall (fun mp => P (snd mp)) ms -> P (PUni b st v t tm cur ms ig cb).
  Hypothesis HI : forall i, P (PIgn i).

  Fixpoint parser_ind' (p : parser) : P p :=
    let fix go (ms : list (mspec * parser)) : Forall (fun mp => P (snd mp)) ms :=
      match ms with
      | [] => Forall_nil _
      | mp :: r => Forall_cons (P := fun mp => P (snd mp)) mp (parser_ind' (snd mp)) (go r)
      end in
    match p with
    | PVal b t v cb => HV b t v cb
    | PArr b sd st vals e cb => HA b sd st vals cb (parser_ind' e)
    | PMap b st key vals e ecb cb => HM b st key vals ecb cb (parser_ind' e)
    | PObj b k v ms ig ign cb => HO b k v ig ign cb (go ms)
    | PUni b st v t tm cur ms ig cb => HU b st v t tm cur ig cb (go ms)
    | PIgn i => HI i
    end.
End ParserInd.

Section SchemaInd.
  Variable P : schema -> Prop.
  Hypothesis HV : forall t cb, P (SVal t cb).
  Hypothesis HA : forall st e cb, P e -> P (SArr st e cb).
  Hypothesis HM : forall st e ecb cb, P e -> P (SMp st e ecb cb).
  Hypothesis HO : forall k ms ign cb,
      Forall (fun mp => P (snd mp)) ms -> P (SObj k ms ign cb).
  Hypothesis HU : forall st t tm ms cb,
      Forall (fun mp => P (snd mp)) ms -> P (SUni st t tm ms cb).
  Hypothesis HI : P SIgn.

  Fixpoint schema_ind' (p : schema) : P p :=
    let fix go (ms : list (mspec * schema)) : Forall (fun mp => P (snd mp)) ms :=
      match ms with
      | [] => Forall_nil _
      | mp :: r => Forall_cons (P := fun mp => P (snd mp)) mp (schema_ind' (snd mp)) (go r)
      end in
    match p with
    | SVal t cb => HV t cb
    | SArr st e cb => HA st cb (schema_ind' e)
    | SMp st e ecb cb => HM st ecb cb (schema_ind' e)
    | SObj k ms ign cb => HO k ign cb (go ms)
    | SUni st t tm ms cb => HU st t tm cb (go ms)
    | SIgn => HI
    end.
End SchemaInd.

(** The declaration a parser object was built from. *)
Fixpoint schema_of (p : parser) : schema :=
  match p with
  | PVal _ t _ cb => SVal t cb
  | PArr _ _ st _ e cb => SArr st (schema_of e) cb
  | PMap _ st _ _ e ecb cb => SMp st (schema_of e) ecb cb
  | PObj _ k _ ms _ ign cb =>
      SObj k (map (fun mp => (fst mp, schema_of (snd mp))) ms) ign cb
  | PUni _ st _ t tm _ ms _ cb =>
      SUni st t tm (map (fun mp => (fst mp, schema_of (snd mp))) ms) cb
  | PIgn _ => SIgn
  end.

(** ** Lists *)
Lemma nth_error_set_nth_eq A n (x : A) l :
  n < List.length l -> nth_error (set_nth n x l) n = Some x.
Proof.
  revert n; induction l as [|y l IH]; intros [|n] H; simpl in *; try lia; auto.
  apply IH; lia.
Qed.

Lemma nth_error_set_nth_ne A n m (x : A) l :
  n <> m -> nth_error (set_nth n x l) m = nth_error l m.
Proof.
  revert n m; induction l as [|y l IH]; intros [|n] [|m] H; simpl in *; try lia; auto.
Qed.

Lemma set_nth_length A n (x : A) l : List.length (set_nth n x l) = List.length l.
Proof. revert n; induction l as [|y l IH]; intros [|n]; simpl; auto. Qed.

Lemma set_nth_set_nth A n (x y : A) l : set_nth n x (set_nth n y l) = set_nth n x l.
Proof. revert n; induction l as [|z l IH]; intros [|n]; simpl; f_equal; auto. Qed.

Lemma set_nth_same A n (x : A) l : nth_error l n = Some x -> set_nth n x l = l.
Proof.
  revert n; induction l as [|z l IH]; intros [|n] H; simpl in *; try congruence.
  f_equal; auto.
Qed.

Lemma map_set_nth A B (f : A -> B) n x l :
  map f (set_nth n x l) = set_nth n (f x) (map f l).
Proof. revert n; induction l as [|z l IH]; intros [|n]; simpl; f_equal; auto. Qed.

Lemma nth_error_Some_lt A (l : list A) n x : nth_error l n = Some x -> n < List.length l.
Proof. intros H; apply nth_error_Some; congruence. Qed.

Lemma Forall_set_nth A (P : A -> Prop) n x l : Forall P l -> P x -> Forall P (set_nth n x l).
Proof.
  intros H Hx; revert n; induction H as [|y l Hy Hl IH]; intros [|n]; simpl; auto.
Qed.

Lemma map_nth_error_inv A B (f : A -> B) n l y :
  nth_error (map f l) n = Some y -> exists x, nth_error l n = Some x /\ f x = y.
Proof.
  revert n; induction l as [|z l IH]; intros [|n] H; simpl in *; try congruence.
  - exists z; split; congruence.
  - apply IH; auto.
Qed.

Lemma forallb_map A B (f : A -> B) (h : B -> bool) l :
  forallb h (map f l) = forallb (fun x => h (f x)) l.
Proof. induction l; simpl; congruence. Qed.

(** ** Members *)
Lemma set_mem_nth_eq n q ms mp :
  nth_error ms n = Some mp -> nth_error (set_mem n q ms) n = Some (fst mp, q).
Proof.
  unfold set_mem; intros H; rewrite H.
  apply nth_error_set_nth_eq, (nth_error_Some_lt _ _ H).
Qed.

Lemma set_mem_set_mem n q q' ms : set_mem n q (set_mem n q' ms) = set_mem n q ms.
Proof.
  destruct (nth_error ms n) as [mp|] eqn:H.
  - unfold set_mem at 1. rewrite (set_mem_nth_eq _ _ _ H). unfold set_mem; rewrite H; simpl.
    apply set_nth_set_nth.
  - unfold set_mem; rewrite H, H; reflexivity.
Qed.

Lemma set_mem_same n ms mp : nth_error ms n = Some mp -> set_mem n (snd mp) ms = ms.
Proof.
  unfold set_mem; intros H; rewrite H. destruct mp; simpl. apply set_nth_same; auto.
Qed.

(** ** Children *)

(** [q] may stand at the place [st] below [p]: only an Ignore fits the [Ign] place. *)
Definition fits (st : step) (q : parser) : Prop :=
  match st with Ign => match q with PIgn _ => True | _ => False end | _ => True end.

Lemma child_set_child_eq p st c q :
  child p st = Some c -> fits st q -> child (set_child p st q) st = Some q.
Proof.
  destruct p, st; simpl; intros H Hf; try discriminate; auto.
  - destruct (nth_error ms n) eqn:Hn; try discriminate.
    rewrite (set_mem_nth_eq _ _ _ Hn); reflexivity.
  - destruct q; simpl in *; tauto.
  - destruct (nth_error ms n) eqn:Hn; try discriminate.
    rewrite (set_mem_nth_eq _ _ _ Hn); reflexivity.
  - destruct q; simpl in *; tauto.
Qed.

Lemma set_child_twice p st q q' :
  fits st q' -> fits st q -> set_child (set_child p st q') st q = set_child p st q.
Proof.
  destruct p, st; simpl; auto; intros H1 H2; try (rewrite set_mem_set_mem; auto).
  - destruct q; destruct q'; simpl in *; try tauto.
  - destruct q; destruct q'; simpl in *; try tauto.
Qed.

Lemma set_child_same p st c : child p st = Some c -> set_child p st c = p.
Proof.
  destruct p, st; simpl; intros H; try discriminate; try congruence.
  - destruct (nth_error ms n) eqn:Hn; try discriminate; simpl in H; inversion H; subst.
    rewrite (set_mem_same _ _ Hn); auto.
  - inversion H; subst; reflexivity.
  - destruct (nth_error ms n) eqn:Hn; try discriminate; simpl in H; inversion H; subst.
    rewrite (set_mem_same _ _ Hn); auto.
  - inversion H; subst; reflexivity.
Qed.

Lemma child_ign_fits p c : child p Ign = Some c -> fits Ign c.
Proof. destruct p; simpl; intros H; inversion H; simpl; auto. Qed.

(** ** Paths *)
Definition fits_at (pi : path) (q : parser) : Prop :=
  match rev pi with [] => True | st :: _ => fits st q end.

(** Same constructor: enough to fit where the other one did. *)
Definition same_kind (p q : parser) : Prop :=
  match p, q with
  | PVal _ _ _ _, PVal _ _ _ _ | PArr _ _ _ _ _ _, PArr _ _ _ _ _ _
  | PMap _ _ _ _ _ _ _, PMap _ _ _ _ _ _ _
  | PObj _ _ _ _ _ _ _, PObj _ _ _ _ _ _ _
  | PUni _ _ _ _ _ _ _ _ _, PUni _ _ _ _ _ _ _ _ _
  | PIgn _, PIgn _ => True
  | _, _ => False
  end.

Lemma same_kind_refl p : same_kind p p.
Proof. destruct p; simpl; auto. Qed.

Lemma same_kind_schema p q : schema_of p = schema_of q -> same_kind p q.
Proof. destruct p, q; simpl; intros; auto; discriminate. Qed.

Lemma set_child_kind p st q : same_kind p (set_child p st q).
Proof. destruct p, st; simpl; auto. Qed.

Lemma same_kind_trans p q r : same_kind p q -> same_kind q r -> same_kind p r.
Proof. destruct p, q, r; simpl; tauto. Qed.

Lemma same_kind_sym p q : same_kind p q -> same_kind q p.
Proof. destruct p, q; simpl; tauto. Qed.

Lemma fits_same_kind p c st q : child p st = Some c -> same_kind c q -> fits st q.
Proof.
  destruct st; simpl; auto. intros H Hk. apply child_ign_fits in H; simpl in H.
  destruct c, q; simpl in *; tauto.
Qed.

Lemma put_kind pi : forall T q p, get pi T = Some p -> same_kind p q -> same_kind T (put pi q T).
Proof.
  destruct pi as [|st pi]; simpl; intros T q p H Hk.
  - inversion H; subst; auto.
  - destruct (child T st); [apply set_child_kind | discriminate].
Qed.

Lemma get_put_same pi : forall T p q,
  get pi T = Some p -> same_kind p q -> get pi (put pi q T) = Some q.
Proof.
  induction pi as [|st pi IH]; simpl; intros T p q H Hk; auto.
  destruct (child T st) as [c|] eqn:Hc; [|discriminate].
  erewrite child_set_child_eq; eauto.
  eapply fits_same_kind; eauto using put_kind.
Qed.

Lemma put_put pi : forall T p q q',
  get pi T = Some p -> same_kind p q -> same_kind p q' ->
  put pi q (put pi q' T) = put pi q T.
Proof.
  induction pi as [|st pi IH]; simpl; intros T p q q' H Hk Hk'; auto.
  destruct (child T st) as [c|] eqn:Hc; [|discriminate].
  assert (fits st (put pi q' c)) by (eapply fits_same_kind; eauto using put_kind).
  assert (fits st (put pi q c)) by (eapply fits_same_kind; eauto using put_kind).
  erewrite child_set_child_eq; eauto.
  rewrite (IH c p q q'); auto.
  apply set_child_twice; auto.
Qed.

Lemma put_same pi : forall T p, get pi T = Some p -> put pi p T = T.
Proof.
  induction pi as [|st pi IH]; simpl; intros T p H; [congruence|].
  destruct (child T st) as [c|] eqn:Hc; [|discriminate].
  rewrite (IH c p H). apply set_child_same; auto.
Qed.

Lemma get_app pi rho : forall T,
  get (pi ++ rho) T = match get pi T with Some p => get rho p | None => None end.
Proof.
  induction pi as [|st pi IH]; simpl; intros T; auto.
  destruct (child T st); auto.
Qed.

Lemma put_app pi rho : forall T p q,
  get pi T = Some p -> put (pi ++ rho) q T = put pi (put rho q p) T.
Proof.
  induction pi as [|st pi IH]; simpl; intros T p q H; [inversion H; subst; auto|].
  destruct (child T st) as [c|] eqn:Hc; [|discriminate].
  rewrite (IH c p q H); reflexivity.
Qed.

Lemma get_child_at pi T p st : get pi T = Some p -> get (pi ++ [st]) T = child p st.
Proof. intros H; rewrite get_app, H; simpl. destruct (child p st); auto. Qed.

Lemma put_child_at pi T p st c q :
  get pi T = Some p -> child p st = Some c -> put (pi ++ [st]) q T = put pi (set_child p st q) T.
Proof. intros H Hc. erewrite put_app; eauto. simpl. rewrite Hc; auto. Qed.

(** ** Heights *)
Lemma list_max_in l x : In x l -> x <= list_max l.
Proof.
  intros H. pose proof (proj1 (list_max_le l (list_max l)) (le_n _)) as F.
  rewrite Forall_forall in F. auto.
Qed.

Lemma child_height p st c : child p st = Some c -> height c < height p.
Proof.
  assert (HM : forall (ms : list (mspec * parser)) n mp,
    nth_error ms n = Some mp ->
    height (snd mp) < S (list_max (1 :: map (fun mp => height (snd mp)) ms))).
  { intros ms n mp H. apply nth_error_In in H.
    apply le_n_S. apply list_max_in. right.
    apply (in_map (fun mp => height (snd mp)) ms mp H). }
  destruct p, st; intros H; try discriminate; cbn [child] in H;
    try (inversion H; subst; cbn [height]; lia).
  - destruct (nth_error ms n) as [mp|] eqn:Hn; cbn [option_map] in H; inversion H; subst.
    apply (HM _ _ _ Hn).
  - inversion H; subst. cbn [height]. apply le_n_S. apply list_max_in. left; auto.
  - destruct (nth_error ms n) as [mp|] eqn:Hn; cbn [option_map] in H; inversion H; subst.
    apply (HM _ _ _ Hn).
  - inversion H; subst. cbn [height]. apply le_n_S. apply list_max_in. left; auto.
Qed.

Lemma get_height pi : forall T p, get pi T = Some p -> height p <= height T.
Proof.
  induction pi as [|st pi IH]; simpl; intros T p H; [inversion H; lia|].
  destruct (child T st) as [c|] eqn:Hc; [|discriminate].
  apply IH in H. apply child_height in Hc. lia.
Qed.

Lemma height_set_disp d p : height (set_disp d p) = height p.
Proof.
  induction p as [| | ? ? ? ? ? ? ? IH | ? ? ? ? ? ? ? IH | ? ? ? ? ? ? ? ? ? IH |]
    using parser_ind'; cbn [set_disp height]; auto.
  - do 2 f_equal. f_equal. rewrite map_map; cbn [snd].
    induction IH as [|mp r H Hr IHr]; cbn [map]; f_equal; auto.
  - do 2 f_equal. f_equal. rewrite map_map; cbn [snd].
    induction IH as [|mp r H Hr IHr]; cbn [map]; f_equal; auto.
Qed.

(** ** pop() by callbacks, anywhere *)
Lemma away_stack rels : forall s, m_stack (away rels s) = m_stack s.
Proof. induction rels as [|r rels IH]; intros s; simpl; auto. unfold away in *. simpl. rewrite IH. reflexivity. Qed.

Lemma away_log rels : forall s, m_log (away rels s) = m_log s.
Proof. induction rels as [|r rels IH]; intros s; simpl; auto. unfold away in *. simpl. rewrite IH. reflexivity. Qed.

Lemma away_root rels : forall s, m_root (away rels s) = apply_pops rels (m_root s).
Proof. induction rels as [|r rels IH]; intros s; simpl; auto. unfold away, apply_pops in *. simpl. rewrite IH. reflexivity. Qed.

Lemma step_eq_dec (a b : step) : {a = b} + {a <> b}.
Proof. decide equality. apply Nat.eq_dec. Qed.

Lemma child_set_child_neq p st st' q : st <> st' -> child (set_child p st q) st' = child p st'.
Proof.
  intros H. destruct p, st, st'; try congruence; try reflexivity; cbn [set_child child]; unfold set_mem;
    destruct (nth_error ms n) eqn:E; auto; rewrite nth_error_set_nth_ne; auto; congruence.
Qed.

Lemma unset_at_cons p st c rel :
  child p st = Some c -> unset_at p (st :: rel) = set_child p st (unset_at c rel) .
Proof.
  intros Hc. unfold unset_at. cbn [get]. rewrite Hc.
  destruct (get rel c) as [q|] eqn:Hg.
  - destruct (stored q).
    + cbn [put]. rewrite Hc. reflexivity.
    + symmetry. apply set_child_same; auto.
  - symmetry; apply set_child_same; auto.
Qed.

Lemma unset_at_none p st rel : child p st = None -> unset_at p (st :: rel) = p.
Proof. intros Hc. unfold unset_at. cbn [get]. rewrite Hc; auto. Qed.

(** The parser at [pi] after a pop() of the one at [rel]. *)
Lemma get_unset_at pi : forall rel T p, get pi T = Some p ->
  exists q, get pi (unset_at T rel) = Some q /\ (q = p \/ exists rel', q = unset_at p rel').
Proof.
  induction pi as [|st pi IH]; intros rel T p Hg.
  - cbn in Hg. injection Hg as ->. exists (unset_at p rel). split; eauto.
  - cbn [get] in Hg. destruct (child T st) as [c|] eqn:Hc; [|discriminate].
    destruct rel as [|st' rel].
    + exists p. split; auto. unfold unset_at. cbn [get put]. destruct (stored T); cbn [get]; [|rewrite Hc; auto].
      replace (child (set_set false T) st) with (child T st) by (destruct T; auto). rewrite Hc. auto.
    + destruct (child T st') as [c'|] eqn:Hc'.
      * rewrite (unset_at_cons T st' rel Hc'). cbn [get]. destruct (step_eq_dec st' st) as [->|Hn].
        -- rewrite Hc in Hc'. injection Hc' as <-. rewrite (child_set_child_eq T st (unset_at c rel) Hc).
           ++ apply IH; auto.
           ++ eapply fits_same_kind; [exact Hc|]. unfold unset_at. destruct (get rel c) as [q|] eqn:Hq; [|apply same_kind_refl].
              destruct (stored q); [|apply same_kind_refl]. eapply put_kind; [exact Hq|]. destruct q; simpl; auto.
        -- rewrite child_set_child_neq by auto. rewrite Hc. eauto.
      * rewrite unset_at_none by auto. cbn [get]. rewrite Hc. eauto.
Qed.

(** The states in [faults], case by case. *)
Lemma faults_cases g (Q : mstate -> Prop) c s s' :
  In s' (faults g c s) ->
  (forall pi t i, c = COn pi t -> t = TMapStart \/ t = TArrStart -> get pi (m_root s) = Some (PIgn i) -> Q s) ->
  (forall pi t p, c = COn pi t -> get pi (m_root s) = Some p ->
     match p, t with
     | PVal _ ty _ _, TSc x => takes_scalar ty x = true
     | PMap b _ _ _ _ _ _, TKey _ => b_disp b = Some g
     | PObj _ _ _ _ _ _ _, TKey _ => True
     | _, _ => False
     end -> Q (upd s pi (set_not_empty p))) ->
  (forall pi t b st vals e cb, c = COn pi t -> t = TMapStart \/ t = TArrStart ->
     get pi (m_root s) = Some (PArr b true st vals e cb) -> b_disp b = Some g ->
     Q (upd s pi (set_not_empty (PArr b true st vals (set_disp (Some g) e) cb)))) ->
  (forall pi k b st key vals e ecb cb, c = COn pi (TKey k) ->
     get pi (m_root s) = Some (PMap b st key vals e ecb cb) -> b_disp b = Some g ->
     Q (push (upd s pi (set_not_empty (PMap b st key vals e ecb cb))) (pi ++ [Elem]))) ->
  (forall pi x b st v ty tm cur ms ig cb, c = COn pi (TSc x) -> takes_scalar ty x = true ->
     get pi (m_root s) = Some (PUni b st v ty tm cur ms ig cb) ->
     Q (upd s pi (set_not_empty (reset (PUni b st v ty tm cur ms ig cb))))) ->
  (forall pi x b st v ty tm cur ms ig cb i, c = COn pi (TSc x) -> takes_scalar ty x = true ->
     get pi (m_root s) = Some (PUni b st v ty tm cur ms ig cb) -> b_disp b = Some g -> lookup x ms = Some i ->
     Q (push (upd s pi (set_not_empty (reset (PUni b st v ty tm cur ms ig cb)))) (pi ++ [Mem i]))) ->
  Q s'.
Proof.
  intros Hin H0 H1 H2 H3 H4 H5. destruct c as [|t|pi t|pi|pi]; try contradiction. cbn [faults] in Hin.
  destruct (get pi (m_root s)) as [p|] eqn:Hg; [|contradiction].
  destruct p, t; try contradiction.
  - destruct (takes_scalar t0 x) eqn:Ht; [|contradiction]. destruct Hin as [<-|[]]. eapply H1; eauto.
  - destruct started; [|contradiction]. apply in_live in Hin. destruct Hin as [Hd [<-|[]]]. rewrite Hd. eapply H2; eauto.
  - destruct started; [|contradiction]. apply in_live in Hin. destruct Hin as [Hd [<-|[]]]. rewrite Hd. eapply H2; eauto.
  - apply in_live in Hin. destruct Hin as [Hd [<-|[<-|[]]]]; [eapply H1|eapply H3]; eauto.
  - destruct Hin as [<-|[]]. eapply H1; eauto. exact I.
  - destruct (takes_scalar t0 x) eqn:Ht; [|contradiction]. destruct Hin as [<-|Hin]; [eapply H4; eauto|].
    destruct (lookup x ms) eqn:Hl; [|contradiction]. apply in_live in Hin. destruct Hin as [Hd [<-|[]]]. eapply H5; eauto.
  - destruct Hin as [<-|[]]. eapply H0; eauto.
  - destruct Hin as [<-|[]]. eapply H0; eauto.
Qed.
