(** Which callbacks run, and in which order: the entities of a document in the
    order in which they end. *)

From Verif Require Import Spec Model Infra Total Safe Refine Main.
Local Open Scope string_scope.
Set Implicit Arguments.

Definition ev_id (e : event) : cbid := let (c, _) := e in c.

Definition opt_id (c : option cbid) : list cbid := match c with Some c => [c] | None => [] end.

(** The member selected by the type value [x] parses the rest; then the union's
    callback. *)
Definition select_ids (rest : schema -> list cbid) (ms : list (mspec * schema)) (ucb : option cbid)
           (x : scalar) : list cbid :=
  match index_of x ms with
  | Some i => match nth_error ms i with Some (_, c) => rest c ++ opt_id ucb | None => [] end
  | None => []
  end%list.

Section BodyIds.
Variable D : json -> schema -> list cbid.

Fixpoint body_ids (ps : list (string * json)) (s : schema) (empty : bool) {struct ps} : list cbid :=
  match ps with
  | [] =>
      match s with
      | SObj _ _ _ cb => if empty then [] else opt_id cb
      | SMp _ _ _ cb => opt_id cb
      | _ => []
      end
  | (k, v) :: ps' =>
      let rest c := body_ids ps' c true in
      match s with
      | SObj _ ms _ cb =>
          match index_of (SStr k) ms with
          | Some i =>
              match nth_error ms i with
              | Some (_, c) =>
                  match embedded c v with
                  | Some (_, _, ums, ucb, x) => select_ids rest ums ucb x ++ opt_id cb
                  | None => D v c ++ body_ids ps' s false
                  end
              | None => []
              end
          | None => body_ids ps' s false
          end
      | SMp _ e ecb cb =>
          match embedded e v with
          | Some (_, _, ums, ucb, x) => select_ids rest ums ucb x ++ opt_id ecb ++ opt_id cb
          | None => D v e ++ opt_id ecb ++ body_ids ps' s false
          end
      | SUni _ _ _ ms cb => match v with JSc x => select_ids rest ms cb x | _ => [] end
      | _ => []
      end
  end%list.
End BodyIds.

(** The callbacks of the entities of document [j] under declaration [s], in the
    order in which the entities end.  null entities and empty objects have none. *)
Fixpoint ids (j : json) (s : schema) : list cbid :=
  match j with
  | JNull => []
  | JSc _ => match s with SVal _ cb => opt_id cb | _ => [] end
  | JArr js => match s with SArr _ e cb => flat_map (fun j => ids j e) js ++ opt_id cb | _ => [] end
  | JObj ps =>
      match s with
      | SVal _ _ | SArr _ _ _ | SIgn => []
      | _ => body_ids ids ps s true
      end
  end%list.

Section Order.
Variable P : prog.
Notation body := (Spec.body P (den P)).

(** New events: exactly [is] if successful, a beginning of [is] otherwise. *)
Definition traced {A} (l : list event) (o : list event * (exn + A)) (is : list cbid) : Prop :=
  exists evs, fst o = (l ++ evs)%list /\
    match snd o with
    | inr _ => map ev_id evs = is
    | inl _ => exists rest, is = (map ev_id evs ++ rest)%list
    end.

Lemma traced_ok A l (a : A) : traced l (l, inr a) [].
Proof. exists []. simpl. rewrite app_nil_r. auto. Qed.

Lemma traced_err A l e is : @traced A l (l, inl e) is.
Proof. exists []. simpl. rewrite app_nil_r. split; auto. exists is; auto. Qed.

Lemma traced_andthen A B l (r : list event * (exn + A)) (k : A -> list event -> list event * (exn + B)) is1 is2 :
  traced l r is1 -> (forall a l', r = (l', inr a) -> traced l' (k a l') is2) ->
  traced l (andthen r k) (is1 ++ is2)%list.
Proof.
  intros (evs & H1 & H2) Hk. destruct r as [l1 [e|a]]; simpl in *.
  - exists evs. split; auto. simpl. destruct H2 as [rest ->]. exists (rest ++ is2)%list.
    rewrite app_assoc. auto.
  - destruct (Hk a l1 eq_refl) as (evs' & K1 & K2). exists (evs ++ evs')%list. split.
    + rewrite K1, H1, app_assoc. auto.
    + destruct (k a l1) as [l2 [e|b]]; simpl in *.
      * destruct K2 as [rest ->]. exists rest. rewrite map_app, H2, app_assoc. auto.
      * rewrite map_app, H2, K2. auto.
Qed.

Lemma traced_invoke cb o msg l k :
  (forall a l', traced l' (k a l') []) -> traced l (invoke P cb o msg l k) (opt_id cb).
Proof.
  intros Hk. unfold invoke. destruct cb as [c|]; [|apply Hk]. cbn [opt_id].
  destruct (a_res (p_cb P c l o)); unfold err.
  - destruct (Hk (p_cb P c l o) (l ++ [Ev c o])%list) as (evs & H1 & H2).
    exists (Ev c o :: evs). split; [rewrite H1, <- app_assoc; auto|].
    destruct (snd (k (p_cb P c l o) (l ++ [Ev c o])%list)); simpl.
    + destruct H2 as [rest H2]. exists rest. rewrite app_comm_cons in *. simpl.
      destruct (map ev_id evs); simpl in *; [subst|discriminate]; auto.
    + f_equal; auto.
  - exists [Ev c o]. split; auto. simpl. exists []; auto.
  - exists [Ev c o]. split; auto. simpl. exists []; auto.
  - exists [Ev c o]. split; auto. simpl. exists []; auto.
Qed.

Lemma traced_end_object k ms cb kids l :
  traced l (end_object P k ms cb false kids l) (opt_id cb).
Proof.
  unfold end_object, err. destruct k;
    [destruct (missing ms kids)|destruct (member_values P ms kids)|destruct (missing ms kids)];
    auto using traced_err; apply traced_invoke; intros; apply traced_ok.
Qed.

Lemma traced_end_union st cb i m w kids l : traced l (end_union P st cb i m w kids l) (opt_id cb).
Proof.
  unfold end_union, err. destruct st.
  - destruct (member_value P m w _); auto using traced_err. apply traced_invoke; intros; apply traced_ok.
  - destruct (v_set w || m_opt m); auto using traced_err. apply traced_invoke; intros; apply traced_ok.
Qed.

Lemma traced_end_map st cb empty vals l : traced l (end_map P st cb empty vals l) (opt_id cb).
Proof. unfold end_map. apply traced_invoke; intros; apply traced_ok. Qed.

Lemma traced_map_elem st ecb k w vals l : traced l (end_map_elem P st ecb k w vals l) (opt_id ecb).
Proof.
  unfold end_map_elem. rewrite <- (app_nil_r (opt_id ecb)). apply traced_andthen.
  - apply traced_invoke; intros; apply traced_ok.
  - intros a l' _. destruct st; [|apply traced_ok]. destruct (v_val a) as [v|]; [|apply traced_err].
    destruct (storing P v); [apply traced_err|apply traced_ok].
Qed.

Lemma andthen_ok_fst A (r : list event * (exn + A)) (b : bool) l' f w :
  andthen r (fun u l => (l, inr (b, u))) = (l', inr (f, w)) -> f = b.
Proof. destruct r as [l1 [e|a]]; simpl; congruence. Qed.

Definition T (j : json) : Prop := forall s l, traced l (den P j s l) (ids j s).

Lemma traced_select rest resti st t ms cb x l :
  (forall c l, traced l (rest c l) (resti c)) ->
  traced l (select P rest st t ms cb x l) (select_ids resti ms cb x).
Proof.
  intros Hrest. unfold select, select_ids, err, bad.
  destruct (vtype_eqb (ty_of x) t); [|apply traced_err].
  destruct (index_of x ms) as [i|]; [|apply traced_err].
  destruct (nth_error ms i) as [[m c]|]; [|apply traced_err].
  apply traced_andthen; auto. intros; apply traced_end_union.
Qed.

Lemma body_ids_cons k v ps s empty :
  body_ids ids ((k, v) :: ps) s empty =
  (let rest c := body_ids ids ps c true in
      match s with
      | SObj _ ms _ cb =>
          match index_of (SStr k) ms with
          | Some i =>
              match nth_error ms i with
              | Some (_, c) =>
                  match embedded c v with
                  | Some (_, _, ums, ucb, x) => select_ids rest ums ucb x ++ opt_id cb
                  | None => ids v c ++ body_ids ids ps s false
                  end
              | None => []
              end
          | None => body_ids ids ps s false
          end
      | SMp _ e ecb cb =>
          match embedded e v with
          | Some (_, _, ums, ucb, x) => select_ids rest ums ucb x ++ opt_id ecb ++ opt_id cb
          | None => ids v e ++ opt_id ecb ++ body_ids ids ps s false
          end
      | SUni _ _ _ ms cb => match v with JSc x => select_ids rest ms cb x | _ => [] end
      | _ => []
      end)%list.
Proof. destruct s; reflexivity. Qed.

Lemma traced_body ps : Forall (fun kv => T (snd kv)) ps -> forall s empty kids vals l,
  traced l (body ps s empty kids vals l) (body_ids ids ps s empty).
Proof.
  induction 1 as [|[k v] ps Hv Hps IH]; intros s empty kids vals l.
  - destruct s; simpl; unfold bad; auto using traced_err, traced_ok, traced_end_map.
    destruct empty; [apply traced_ok|apply traced_end_object].
  - simpl in Hv. rewrite body_cons, body_ids_cons. cbn zeta.
    destruct s; unfold bad, err; auto using traced_err.
    + unfold value_of. destruct (embedded s v) as [[[[[st t] ums] ucb] x]|].
      * apply traced_andthen.
        -- rewrite <- (app_nil_r (select_ids _ _ _ _)). apply traced_andthen; [apply traced_select; auto|].
           intros; apply traced_ok.
        -- intros [f w] l' Hr. apply andthen_ok_fst in Hr.
           cbn [fst snd]. apply traced_andthen; [apply traced_map_elem|].
           intros vals' l2 _. subst f. apply traced_end_map.
      * apply traced_andthen.
        -- rewrite <- (app_nil_r (ids v s)). apply traced_andthen; [apply Hv|]. intros; apply traced_ok.
        -- intros [f w] l' Hr. apply andthen_ok_fst in Hr. cbn [fst snd].
           apply traced_andthen; [apply traced_map_elem|].
           intros vals' l2 _. subst f. apply IH.
    + destruct (index_of (SStr k) ms) as [i|].
      * destruct (nth_error ms i) as [[m c]|]; [|apply traced_err].
        unfold value_of. destruct (embedded c v) as [[[[[st t] ums] ucb] x]|].
        -- apply traced_andthen.
           ++ rewrite <- (app_nil_r (select_ids _ _ _ _)). apply traced_andthen; [apply traced_select; auto|].
              intros; apply traced_ok.
           ++ intros [f w] l' Hr. apply andthen_ok_fst in Hr. cbn [fst snd]. subst f. apply traced_end_object.
        -- apply traced_andthen.
           ++ rewrite <- (app_nil_r (ids v c)). apply traced_andthen; [apply Hv|]. intros; apply traced_ok.
           ++ intros [f w] l' Hr. apply andthen_ok_fst in Hr. cbn [fst snd]. subst f. apply IH.
      * destruct ign; [apply IH|apply traced_err].
    + destruct (String.eqb tm ""); [apply traced_err|]. destruct (String.eqb k tm); [|apply traced_err].
      destruct v; auto using traced_err. apply traced_select; auto.
Qed.

Lemma traced_elems st e cb js : Forall T js -> forall empty vals l,
  traced l (elems P (den P) st e cb js empty vals l) (flat_map (fun j => ids j e) js ++ opt_id cb)%list.
Proof.
  induction 1 as [|j js Hj _ IH]; intros empty vals l.
  - simpl. unfold end_array. destruct st; apply traced_invoke; intros; apply traced_ok.
  - destruct (is_null j) eqn:Hn; [destruct j; try discriminate; apply IH|].
    rewrite elems_cons by auto. cbn [flat_map]. rewrite <- app_assoc. apply traced_andthen; auto.
    intros w l' _. destruct st; auto. destruct (v_val w) as [v|]; [|apply traced_err].
    destruct (storing P v); cbn [andthen]; [apply traced_err|apply IH].
Qed.

(** The callbacks run in the order in which the entities end; a failing parse has
    run a beginning of that sequence. *)
Theorem callback_order j : T j.
Proof.
  induction j as [|x|js IH|ps IH] using json_ind'; intros s l.
  - simpl. apply traced_ok.
  - simpl. unfold bad. destruct s; auto using traced_err, traced_ok.
    destruct (vtype_eqb (ty_of x) t); [|apply traced_err]. apply traced_invoke; intros; apply traced_ok.
  - destruct s; simpl; unfold bad; auto using traced_err, traced_ok. apply traced_elems; auto.
  - destruct s; cbn [den ids]; unfold bad, err; auto using traced_err, traced_ok; try (apply traced_body; auto).
    destruct (String.eqb tm ""); [apply traced_err|]. apply traced_body; auto.
Qed.
End Order.
