(** Why a token is refused: the complete list of the errors of the library, each with what
    it says about the parsers. *)

From Verif Require Import Spec Model Infra Total Safe Lock Log Cut.
Local Open Scope string_scope.
Set Implicit Arguments.

(** ** Specification *)

(** The tokens that a parser takes, by its class. *)
Definition welcome (p : parser) (t : token) : bool :=
  match p, t with
  (* Value: null, or a scalar of its type *)
  | PVal _ ty _ _, TSc x => vtype_eqb (ty_of x) ty
  | PVal _ _ _ _, TNull => true
  | PVal _ _ _ _, _ => false
  (* arrays: null, '[' and ']'; once started, the beginning of any value *)
  | PArr _ _ _ _ _ _, (TNull | TArrStart | TArrEnd) => true
  | PArr _ started _ _ _ _, (TSc _ | TMapStart) => started
  | PArr _ _ _ _ _ _, (TKey _ | TMapEnd) => false
  (* maps and objects: null, '{', keys, '}' *)
  | (PMap _ _ _ _ _ _ _ | PObj _ _ _ _ _ _ _), (TNull | TMapStart | TKey _ | TMapEnd) => true
  | (PMap _ _ _ _ _ _ _ | PObj _ _ _ _ _ _ _), _ => false
  (* unions: the same, and scalars of the type of the type member *)
  | PUni _ _ _ ty _ _ _ _ _, TSc x => vtype_eqb (ty_of x) ty
  | PUni _ _ _ _ _ _ _ _ _, (TNull | TMapStart | TKey _ | TMapEnd) => true
  | PUni _ _ _ _ _ _ _ _ _, _ => false
  (* a skipped value: what fits to its innermost open object or array *)
  | PIgn _, (TNull | TSc _ | TMapStart | TArrStart) => true
  | PIgn i, (TKey _ | TMapEnd) => match ig_st i with StObj :: _ => true | _ => false end
  | PIgn i, TArrEnd => match ig_st i with StArr :: _ => true | _ => false end
  end.

(** No member has this name. *)
Definition nameless (ms : list (mspec * parser)) (x : scalar) : Prop :=
  forall m q, In (m, q) ms -> ~ same_name (m_name m) x.

(** Why a member [m], called [n] in the text, with parser [q], has no value for the tuple
    or variant of an SAutoObject or SUnion. *)
Inductive lack (E : env) (m : mspec) (q : parser) (n : string) : exn -> Prop :=
| k_missing : m_opt m = false -> is_set q = false ->
    lack E m q n (XStd ("Mandatory member " ++ n ++ " is not present"))
| k_default : m_opt m = true -> m_def m = None -> is_set q = false ->
    lack E m q n (XStd ("Optional member " ++ n ++ " does not have a default value"))
| k_class : stored q = None ->      (* a member class without values *)
    lack E m q n (XStd "Can't get value, parser is unset")
| k_store v x : e_store E v = Some x -> lack E m q n x
| k_memory x : fails_with E x -> lack E m q n x.

(** What the result of a callback with argument [a] says. *)
Inductive objection (a : cbarg) : cbres -> exn -> Prop :=
| j_false : objection a CFalse
    (XStd match a with AElem _ _ => "Element callback returned false" | _ => "Callback returned false" end)
| j_throw m : objection a (CThrow m) (XStd m)
| j_other : objection a CThrowOther XOther.

(** Why the token [t] is refused, and parsing left in the state [s]. *)
Inductive cause (E : env) (t : token) (s : mstate) : exn -> Prop :=
(* the token itself, or the end of the object that an embedded union hands to its parent *)
| x_token pi p u : u = t \/ u = TMapEnd -> get pi (m_root s) = Some p -> welcome p u = false ->
    cause E t s (XStd ("Unexpected token " ++ tok_kind u))
(* an unknown member *)
| x_member pi b k v ms ig cb key : t = TKey key -> get pi (m_root s) = Some (PObj b k v ms ig false cb) ->
    nameless ms (SStr key) -> cause E t s (XStd ("Unexpected member " ++ key))
(* an unknown type of a union *)
| x_type pi b st v ty tm cur ms ig cb x : t = TSc x -> get pi (m_root s) = Some (PUni b st v ty tm cur ms ig cb) ->
    ty_of x = ty -> nameless ms x -> cause E t s (XStd ("Unexpected member " ++ fmt_scalar (e_fmt E) x))
(* an object of a union that does not begin with the type member *)
| x_first pi b st v ty tm cur ms ig cb key : t = TKey key -> get pi (m_root s) = Some (PUni b st v ty tm cur ms ig cb) ->
    tm <> "" -> tm <> key -> cause E t s (XStd ("Unexpected member " ++ key))
| x_embedded pi b st v ty cur ms ig cb : (t = TMapStart \/ exists key, t = TKey key) ->
    get pi (m_root s) = Some (PUni b st v ty "" cur ms ig cb) ->
    cause E t s (XStd "Union with an empty type member can't parse this")
(* a missing member *)
| x_missing pi b k v ms ig ign cb m q : get pi (m_root s) = Some (PObj b k v ms ig ign cb) -> k <> OAuto ->
    In (m, q) ms -> m_opt m = false -> is_set q = false ->
    cause E t s (XStd ("Mandatory member " ++ fmt_scalar (e_fmt E) (m_name m) ++ " is not present"))
| x_missing_union pi b v ty tm cur ms ig cb m q : get pi (m_root s) = Some (PUni b false v ty tm cur ms ig cb) ->
    nth_error ms cur = Some (m, q) -> m_opt m = false -> is_set q = false ->
    cause E t s (XStd ("Mandatory member #" ++ n2s cur ++ " is not present"))
(* no value for the tuple or variant *)
| x_tuple pi b v ms ig ign cb m q y : get pi (m_root s) = Some (PObj b OAuto v ms ig ign cb) ->
    In (m, q) ms -> lack E m q (fmt_scalar (e_fmt E) (m_name m)) y -> cause E t s (XStd (cannot_set_msg y))
| x_variant pi b v ty tm cur ms ig cb m q y : get pi (m_root s) = Some (PUni b true v ty tm cur ms ig cb) ->
    nth_error ms cur = Some (m, q) -> lack E m q ("#" ++ n2s cur) y -> cause E t s (XStd (cannot_set_msg y))
(* an element of an SArray or SMap without value: null, an empty object *)
| x_array pi b sd vals e cb : get pi (m_root s) = Some (PArr b sd true vals e cb) -> get_value e = None ->
    cause E t s (XStd "Can't get value, parser is unset")
| x_map pi b key vals e ecb cb : get pi (m_root s) = Some (PMap b true key vals e ecb cb) -> get_value e = None ->
    cause E t s (XStd "Can't get value, parser is unset")
(* the callback that was called last objection *)
| x_callback c l T a x : m_log s = (l ++ [Ev c (obs_of a)])%list -> objection a (co_res (e_cb E c l T a)) x -> cause E t s x
(* storing an element throws *)
| x_store v x : e_store E v = Some x -> cause E t s x
(* no memory *)
| x_memory x : fails_with E x -> cause E t s x
(* there is no parser that waits for a token *)
| x_nobody : m_stack s = [] -> cause E t s (XStd "Parsers stack is empty").

(** ** Proof *)
Section Errors.
Variable E : env.
Variable g : nat.
Variable t : token.

Definition why (r : res) : Prop := match r with RThrow x s => cause E t s x | _ => True end.

Lemma why_bind r k : why r -> (forall s, r = ROk s -> why (k s)) -> why (bind r k).
Proof. destruct r; simpl; auto. Qed.

Lemma why_at s pi k : (forall p, get pi (m_root s) = Some p -> why (k p)) -> why (at_node s pi k).
Proof. unfold at_node. destruct (get pi (m_root s)); simpl; auto. Qed.

Lemma why_deref d r : why r -> why (deref g d r).
Proof. unfold deref. destruct d; simpl; auto. destruct (Nat.eqb _ _); simpl; auto. Qed.

(** Calls that handle the token. *)
Definition handles (c : call) : Prop :=
  match c with CDisp u | COn _ u => u = t \/ u = TMapEnd | _ => True end.

(** ... with a parser to pop where one is popped. *)
Definition poised (c : call) (s : mstate) : Prop :=
  match c with
  | CDisp _ => True
  | CChild pi => m_stack s <> [] \/ match get pi (m_root s) with Some (PUni _ _ _ _ _ _ _ _ _) => False | _ => True end
  | _ => m_stack s <> []
  end.

Lemma unexpected_same u : unexpected_token u = unexpected u.
Proof. destruct u as [|[]| | | | |]; reflexivity. Qed.

Lemma lookup_nameless (ms : list (mspec * parser)) x : lookup x ms = None -> nameless ms x.
Proof.
  induction ms as [|[m q] r IH]; simpl; intros H m' q' Hin; [contradiction|].
  rewrite name_eqb_eq in H. destruct (sc_eqb (m_name m) x) eqn:Hs; [discriminate|].
  destruct (lookup x r); [discriminate|]. destruct Hin as [Hin|Hin]; [|eapply IH; eauto].
  injection Hin as <- <-. apply same_name_not; auto.
Qed.

Section Bodies.
Variable E' : env.
Hypothesis Hcb : e_cb E' = e_cb E.
Hypothesis Hfmt : e_fmt E' = e_fmt E.
Hypothesis Hst : forall v x, e_store E' v = Some x -> e_store E v = Some x \/ fails_with E x.

Lemma fmt_same x : fmt E' x = fmt_scalar (e_fmt E) x.
Proof. unfold fmt. rewrite Hfmt. destruct x as [[]| | |]; reflexivity. Qed.

Lemma why_store v x s : e_store E' v = Some x -> cause E t s x.
Proof. intros H. apply Hst in H. destruct H; [eapply x_store; eauto|eapply x_memory; eauto]. Qed.

Lemma why_run_cb c a eff msg s :
  (forall o s, m_log (eff o s) = m_log s) -> msg = match a with AElem _ _ => e_ecb_false | _ => e_cb_false end ->
  why (run_cb E' c a eff msg s).
Proof.
  intros Hl ->. unfold run_cb. destruct c as [c|]; [|exact I]. rewrite Hcb.
  set (o := e_cb E c (m_log s) (m_root s) a).
  assert (H : forall r x, co_res o = r -> objection a r x ->
    cause E t (away (co_away o) (eff o (add_log s (Ev c (obs_of a))))) x).
  { intros r x Hr Hx. eapply x_callback with (T := m_root s) (a := a) (c := c) (l := m_log s).
    - rewrite away_log, Hl. reflexivity.
    - fold o. rewrite Hr. exact Hx. }
  destruct (co_res o) eqn:Hr; cbn [why]; auto; eapply H; eauto; constructor.
Qed.

Lemma check_why ms e : check_members E' ms = Some e -> exists m q, In (m, q) ms /\ m_opt m = false /\ is_set q = false /\
  e = XStd ("Mandatory member " ++ fmt_scalar (e_fmt E) (m_name m) ++ " is not present").
Proof.
  induction ms as [|[m q] r IH]; simpl; [discriminate|]. destruct (check_members E' r) as [e'|] eqn:Hr.
  - intros H. injection H as ->. destruct IH as (m' & q' & H1 & H2); auto. exists m', q'; auto.
  - destruct (is_set q) eqn:Hs; [discriminate|]. destruct (m_opt m) eqn:Ho; [discriminate|]. simpl.
    intros H. injection H as <-. exists m, q. rewrite fmt_same. auto 6.
Qed.

Lemma set_values_why ms : forall ms' e, set_values E' ms = (ms', inl e) ->
  exists m q, In (m, q) ms' /\ lack E m q (fmt_scalar (e_fmt E) (m_name m)) e.
Proof.
  induction ms as [|[m q] r IH]; simpl; intros ms' e; [discriminate|].
  destruct (set_values E' r) as [r' [e'|vs]].
  - intros H. injection H as <- <-. destruct (IH r' e' eq_refl) as (m' & q' & H1 & H2). exists m', q'; simpl; auto.
  - destruct (is_set q) eqn:Hs.
    + unfold pop_value, get_value. rewrite Hs. destruct (stored q) as [v|] eqn:Hq.
      * destruct (e_store E' v) as [x|] eqn:Hx; intros H; [|discriminate]. injection H as <- <-.
        exists m, (set_set false q). split; [left; auto|]. apply Hst in Hx. destruct Hx; [eapply k_store|apply k_memory]; eauto.
      * intros H. injection H as <- <-. exists m, q. split; [left; auto|]. apply k_class; auto.
    + destruct (m_opt m) eqn:Ho.
      * destruct (m_def m) as [d|] eqn:Hd.
        -- destruct (e_store E' d) as [x|] eqn:Hx; intros H; [|discriminate]. injection H as <- <-.
           exists m, q. split; [left; auto|]. apply Hst in Hx. destruct Hx; [eapply k_store|apply k_memory]; eauto.
        -- intros H. injection H as <- <-. exists m, q. split; [left; auto|]. rewrite fmt_same. apply k_default; auto.
      * intros H. injection H as <- <-. exists m, q. split; [left; auto|]. rewrite fmt_same. apply k_missing; auto.
Qed.

Lemma nth_set_mem cur q (ms : list (mspec * parser)) m p : nth_error ms cur = Some (m, p) ->
  nth_error (set_mem cur q ms) cur = Some (m, q).
Proof. intros H. rewrite (set_mem_nth_eq cur q _ H). reflexivity. Qed.

Lemma uni_set_why cur ms ms' e : uni_set_value E' cur ms = (ms', inl e) ->
  exists m q, nth_error ms' cur = Some (m, q) /\ lack E m q ("#" ++ n2s cur) e.
Proof.
  unfold uni_set_value. destruct (nth_error ms cur) as [[m q]|] eqn:Hn; [|discriminate].
  destruct (is_set q) eqn:Hs.
  - unfold pop_value, get_value. rewrite Hs. destruct (stored q) as [v|] eqn:Hq.
    + destruct (e_store E' v) as [x|] eqn:Hx; intros H; [|discriminate]. injection H as <- <-.
      exists m, (set_set false q). split; [eapply nth_set_mem; eauto|]. apply Hst in Hx. destruct Hx; [eapply k_store|apply k_memory]; eauto.
    + intros H. injection H as <- <-. exists m, q. split; [auto|]. apply k_class; auto.
  - destruct (m_opt m) eqn:Ho.
    + destruct (m_def m) as [d|] eqn:Hd.
      * destruct (e_store E' d) as [x|] eqn:Hx; intros H; [|discriminate]. injection H as <- <-.
        exists m, q. split; [auto|]. apply Hst in Hx. destruct Hx; [eapply k_store|apply k_memory]; eauto.
      * intros H. injection H as <- <-. exists m, q. split; [auto|]. apply k_default; auto.
    + intros H. injection H as <- <-. exists m, q. split; [auto|]. apply k_missing; auto.
Qed.

Lemma cannot_set_same e : cannot_set e = XStd (cannot_set_msg e).
Proof.
  destruct e as [m|]; reflexivity.
Qed.

Lemma why_finish pi s : why (finish E' pi s).
Proof.
  unfold finish. apply why_at. intros p Hg.
  pose proof no_eff_log as L1. pose proof (pops_eff_log pi) as L2. pose proof (cust_eff_log pi) as L3.
  assert (Hu : forall q, same_kind p q -> get pi (m_root (upd s pi q)) = Some q).
  { intros q Hk. simpl. eapply get_put_same; eauto. }
  destruct p as [b ty v cb|b sd st vals e cb|b st key vals e ecb cb|b k v ms ig ign cb|b st v ty tm cur ms ig cb|i].
  - apply why_run_cb; auto.
  - destruct st; apply why_run_cb; auto.
  - apply why_run_cb; auto.
  - destruct (b_empty b); [exact I|].
    assert (Hm : forall e, k <> OAuto -> check_members E' ms = Some e -> why (RThrow e (upd s pi (set_set false (PObj b k v ms ig ign cb))))).
    { intros e Hk He. destruct (check_why _ He) as (m & q & H1 & H2 & H3 & ->). cbn [why].
      eapply x_missing with (pi := pi); [apply Hu; exact I|exact Hk|exact H1|exact H2|exact H3]. }
    destruct k.
    + destruct (check_members E' ms) eqn:Hc; [apply Hm; auto; discriminate|apply why_run_cb; auto].
    + destruct (set_values E' ms) as [ms' [e|vs]] eqn:Hv; [|apply why_run_cb; auto].
      destruct (set_values_why _ Hv) as (m & q & H1 & H2). cbn [why]. rewrite cannot_set_same.
      eapply x_tuple with (pi := pi); [apply Hu; exact I|exact H1|exact H2].
    + destruct (check_members E' ms) eqn:Hc; [apply Hm; auto; discriminate|apply why_run_cb; auto].
  - destruct (b_empty b); [exact I|]. destruct st.
    + destruct (uni_set_value E' cur ms) as [ms' [e|vs]] eqn:Hv; [|apply why_run_cb; auto].
      destruct (uni_set_why _ _ Hv) as (m & q & H1 & H2). cbn [why]. rewrite cannot_set_same.
      eapply x_variant with (pi := pi); [apply Hu; exact I|exact H1|exact H2].
    + destruct (uni_check cur ms) eqn:Hc; [|apply why_run_cb; auto]. unfold uni_check in Hc.
      destruct (nth_error ms cur) as [[m q]|] eqn:Hn; [|discriminate].
      destruct (is_set q) eqn:Hs; [discriminate|]. destruct (m_opt m) eqn:Ho; [discriminate|]. simpl in Hc. injection Hc as <-.
      cbn [why]. eapply x_missing_union with (pi := pi); [apply Hu; exact I|exact Hn|exact Ho|exact Hs].
  - exact I.
Qed.

Variable rec : call -> mstate -> res.
Hypothesis Hrec : forall c s, handles c -> poised c s -> why (rec c s).
Hypothesis Hle : forall c s, lex g s (rec c s).

Lemma why_pop_if d s : m_stack s <> [] -> why (pop_if_disp g rec d s).
Proof. intros H. unfold pop_if_disp. destruct d; [|exact I]. apply why_deref, Hrec; simpl; auto. Qed.

Lemma why_null pi p s : m_stack s <> [] -> why (on_null g rec pi p s).
Proof. intros H. apply why_pop_if. exact H. Qed.

Lemma why_refused pi p u s : u = t \/ u = TMapEnd -> get pi (m_root s) = Some p -> welcome p u = false -> why (throw_unexpected u s).
Proof. intros H1 H2 H3. unfold throw_unexpected. rewrite unexpected_same. eapply x_token; eauto. Qed.

Lemma why_body c s : handles c -> poised c s -> why (call_body E' g rec c s).
Proof.
  intros Hh Hr. destruct c as [|u|pi u|pi|pi]; cbn [call_body].
  - unfold body_pop. simpl in Hr. destruct (m_stack s) as [|p [|q r]]; [contradiction|exact I|].
    apply Hrec; simpl; auto. left; discriminate.
  - unfold body_disp. destruct (m_stack s) as [|q r] eqn:Hs; [apply x_nobody; auto|]. apply Hrec; auto. simpl. congruence.
  - simpl in Hh, Hr. unfold body_on. apply why_at. intros p Hg.
    assert (Hend : forall q, why (rec (CEnd pi) (upd s pi q))) by (intros; apply Hrec; simpl; auto).
    assert (Hend0 : why (rec (CEnd pi) s)) by (apply Hrec; simpl; auto).
    assert (Hbad : welcome p u = false -> why (throw_unexpected u s)) by (eapply why_refused; eauto).
    destruct p as [b ty v cb|b sd st vals e cb|b st key vals e ecb cb|b k v ms ig ign cb|b st v ty tm cur ms ig cb|i].
    + destruct u as [|x| | | | |]; cbn [on_val]; auto using why_null.
      destruct (takes_scalar ty x) eqn:Hx; auto. apply Hbad. simpl. rewrite <- takes_scalar_eq. auto.
    + assert (Hent : why (arr_enter g rec pi (PArr b sd st vals e cb) u s)).
      { unfold arr_enter. apply why_deref, Hrec; simpl; auto. discriminate. }
      destruct u as [|x| | | | |]; cbn [on_arr]; auto using why_null.
      * destruct sd; [apply Hrec; simpl; auto|apply why_null; auto].
      * destruct sd; auto. apply why_bind; [apply Hrec; simpl; auto|]. intros s1 Hs1. apply why_at. intros p1 Hg1.
        apply Hrec; [exact I|]. right. cbn [upd m_root].
        pose proof (Hle (COn (pi ++ [Elem])%list (TSc x)) s) as Hl. rewrite Hs1 in Hl. cbn [lex] in Hl.
        destruct (le_get pi Hl Hg) as (c1 & Hc1 & Hlc). rewrite Hg1 in Hc1. injection Hc1 as <-.
        inversion Hlc; subst. erewrite get_put_same; [|exact Hg1|exact I]. exact I.
      * destruct sd; auto.
      * destruct sd; auto. exact I.
    + destruct u as [|x| | | | |]; cbn [on_map]; auto using why_null; try exact I. apply why_deref. exact I.
    + destruct u as [|x| |key| | |]; cbn [on_obj]; auto using why_null; try exact I.
      unfold on_member. destruct (lookup (SStr key) ms) eqn:Hlk; [apply why_deref; exact I|].
      destruct ign; [apply why_deref; exact I|]. cbn [why]. rewrite fmt_same.
      destruct Hh as [Hh|Hh]; [|discriminate].
      eapply x_member with (pi := pi) (key := key); [auto|simpl; eapply get_put_same; eauto; exact I|apply lookup_nameless; auto].
    + destruct u as [|x| |key| | |]; cbn [on_uni]; auto using why_null; try exact I.
      * destruct (takes_scalar ty x) eqn:Hx; [|apply Hbad; simpl; rewrite <- takes_scalar_eq; auto].
        rewrite takes_scalar_eq in Hx. destruct Hh as [Hh|Hh]; [|discriminate]. apply why_bind.
        -- unfold on_member. destruct (lookup x ms) eqn:Hlk; [apply why_deref; exact I|]. cbn [why]. rewrite fmt_same.
           assert (Hp : get pi (m_root (upd s pi (reset (PUni b st v ty tm cur ms ig cb)))) = Some (reset (PUni b st v ty tm cur ms ig cb)))
             by (simpl; eapply get_put_same; eauto; exact I).
           eapply x_type with (pi := pi) (x := x); [auto| |apply vtype_eqb_eq; exact Hx|].
           ++ cbn [upd m_root]. eapply get_put_same; [exact Hp|exact I].
           ++ clear -Hlk. intros m q Hin. apply lookup_nameless in Hlk.
              apply in_map_iff in Hin. destruct Hin as ([m0 q0] & Heq & Hin). injection Heq as <- <-. eapply Hlk; eauto.
        -- intros s2 Hs2. apply why_at. intros p2 Hg2. destruct p2; try exact I. destruct (lookup x ms); exact I.
      * destruct (String.eqb tm "") eqn:Htm; [|exact I]. apply String.eqb_eq in Htm. subst tm. destruct Hh as [Hh|Hh]; [|discriminate].
        eapply x_embedded; eauto.
      * destruct Hh as [Hh|Hh]; [|discriminate]. destruct (String.eqb tm "") eqn:Htm.
        -- apply String.eqb_eq in Htm. subst tm. eapply x_embedded; eauto.
        -- destruct (String.eqb key tm) eqn:Hk; [exact I|]. apply String.eqb_neq in Htm, Hk.
           eapply x_first with (tm := tm) (key := key); eauto.
    + destruct u as [|x| |key| | |]; cbn [on_ign]; auto using why_null; try exact I.
      * destruct (ig_st i); [exact Hend0|exact I].
      * cbn [welcome] in Hbad. destruct (ig_st i) as [|[] r]; auto. exact I.
      * cbn [welcome] in Hbad. destruct (ig_st i) as [|[] [|? ?]]; auto; exact I.
      * cbn [welcome] in Hbad. destruct (ig_st i) as [|[] [|? ?]]; auto; exact I.
  - simpl in Hr. unfold body_end. apply why_at. intros p Hg. apply why_bind; [apply why_finish|].
    intros s2 Hs2. apply why_at. intros p2 Hg2. apply why_pop_if.
    pose proof (finish_quiet E' pi (upd s pi (set_set true p))) as Q. rewrite Hs2 in Q. simpl in Q. rewrite Q. exact Hr.
  - unfold body_child. apply why_at. intros p Hg. simpl in Hr. rewrite Hg in Hr.
    destruct p as [b ty v cb|b sd st vals e cb|b st key vals e ecb cb|b k v ms ig ign cb|b st v ty tm cur ms ig cb|i]; try exact I.
    + destruct st; [|exact I]. unfold pop_value. destruct (get_value e) as [v|] eqn:Hv; [|eapply x_array; eauto].
      destruct (e_store E' v) eqn:Hs; [eapply why_store; eauto|exact I].
    + apply why_bind; [apply why_run_cb; auto using pops_eff_log|]. intros s1 Hs1. destruct st; [|exact I].
      pose proof (@lex_run_cb E' g ecb (AElem key e) (pops_eff (pi ++ [Elem])%list) e_ecb_false s (@eff_pops g _)) as Hl.
      rewrite Hs1 in Hl. cbn [lex] in Hl. destruct (le_get pi Hl Hg) as (c1 & Hc1 & Hlc).
      apply why_at. intros p1 Hg1. rewrite Hg1 in Hc1. injection Hc1 as <-. destruct p1 as [| |b1 st1 key1 vals1 e1 ecb1 cb1| | |]; try exact I.
      unfold pop_value. destruct (get_value e1) as [v|] eqn:Hv; [|].
      * destruct (e_store E' v) eqn:Hs; [eapply why_store; eauto|exact I].
      * inversion Hlc; subst. eapply x_map; eauto.
    + destruct Hr as [Hr|[]]. apply why_bind; [apply Hrec; simpl; auto|]. intros s1 Hs1.
      destruct (String.eqb tm ""); [|exact I]. apply why_at. intros p1 Hg1. apply why_deref, Hrec; simpl; auto.
Qed.
End Bodies.

Lemma why_exec f : forall c s, handles c -> poised c s -> why (exec E g f c s).
Proof.
  induction f as [|f IH]; intros c s Hh Hr; [exact I|]. cbn [exec]. unfold Model.body.
  destruct (e_alloc E c s) as [[k x|x]|] eqn:Ha.
  - destruct (nth_error (faults g c s) k); [|apply why_body; auto; intros; apply exec_le].
    apply x_memory. exists c, s. left. eauto.
  - apply why_body; auto; [|intros; apply exec_le]. intros v y Hy. simpl in Hy. injection Hy as <-. right. exists c, s. auto.
  - apply why_body; auto. intros; apply exec_le.
Qed.
End Errors.

Theorem dispatch_why E g t s x s' : dispatch E g t s = RThrow x s' -> cause E t s' x.
Proof.
  intros H. pose proof (@why_exec E g t (fuel_for s) (CDisp t) s (or_introl eq_refl) I) as K. unfold dispatch in H. rewrite H in K. exact K.
Qed.

(** The token at which a run stops. *)
Theorem run_why E g ts : forall s x s', run E g ts s = RThrow x s' ->
  exists ts1 t ts2 s1, ts = (ts1 ++ t :: ts2)%list /\ run E g ts1 s = ROk s1 /\ dispatch E g t s1 = RThrow x s' /\ cause E t s' x.
Proof.
  induction ts as [|t ts IH]; intros s x s' H; [discriminate|]. cbn [run] in H.
  destruct (dispatch E g t s) as [s1|e s1|u|] eqn:Hd; cbn [bind] in H; try discriminate.
  - destruct (IH _ _ _ H) as (ts1 & t' & ts2 & s2 & -> & H1 & H2 & H3).
    exists (t :: ts1), t', ts2, s2. split; [reflexivity|]. split; [cbn [run]; rewrite Hd; exact H1|]. auto.
  - injection H as -> ->. exists [], t, ts, s. split; [reflexivity|]. split; [reflexivity|]. split; [exact Hd|].
    eapply dispatch_why; eauto.
Qed.
