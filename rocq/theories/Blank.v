(** Ignored members at any depth: their values do not matter. *)

From Verif Require Import Spec Model Infra Total Safe Refine Main.
Local Open Scope string_scope.
Set Implicit Arguments.

(** The members after the type value [x] of a union belong to the selected member. *)
Definition blank_rest (go : schema -> list (string * json)) (ps : list (string * json))
           (ms : list (mspec * schema)) (x : scalar) : list (string * json) :=
  match index_of x ms with
  | Some i => match nth_error ms i with Some (_, c) => go c | None => ps end
  | None => ps
  end.

Section BlankBody.
Variable D : json -> schema -> json.

Fixpoint blank_body (ps : list (string * json)) (s : schema) {struct ps} : list (string * json) :=
  match ps with
  | [] => []
  | (k, v) :: ps' =>
      let go c := blank_body ps' c in
      match s with
      | SObj _ ms ign _ =>
          match index_of (SStr k) ms with
          | Some i =>
              match nth_error ms i with
              | Some (_, c) =>
                  match embedded c v with
                  | Some (_, _, ums, _, x) => (k, v) :: blank_rest go ps' ums x
                  | None => (k, D v c) :: go s
                  end
              | None => ps
              end
          | None => if ign then (k, JNull) :: go s else ps
          end
      | SMp _ e _ _ =>
          match embedded e v with
          | Some (_, _, ums, _, x) => (k, v) :: blank_rest go ps' ums x
          | None => (k, D v e) :: go s
          end
      | SUni _ _ _ ms _ =>
          match v with JSc x => (k, v) :: blank_rest go ps' ms x | _ => ps end
      | _ => ps
      end
  end.
End BlankBody.

(** [blank j s]: document [j] with the value of every member that declaration [s]
    ignores replaced by null, at every depth. *)
Fixpoint blank (j : json) (s : schema) : json :=
  match j, s with
  | JArr js, SArr _ e _ => JArr (map (fun j => blank j e) js)
  | JObj ps, (SObj _ _ _ _ | SMp _ _ _ _ | SUni _ _ _ _ _) => JObj (blank_body blank ps s)
  | _, _ => j
  end.

Section Blank.
Variable P : prog.
Notation body := (Spec.body P (den P)).

Definition B (j : json) : Prop := forall s l, den P (blank j s) s l = den P j s l.

Lemma blank_null j s : is_null (blank j s) = is_null j.
Proof. destruct j; auto; destruct s; auto. Qed.

Lemma embedded_blank c v : embedded c v = None -> embedded c (blank v c) = None.
Proof. destruct c; auto; destruct v; auto. Qed.

Lemma blank_body_cons k v ps s :
  blank_body blank ((k, v) :: ps) s =
      let go c := blank_body blank ps c in
      match s with
      | SObj _ ms ign _ =>
          match index_of (SStr k) ms with
          | Some i =>
              match nth_error ms i with
              | Some (_, c) =>
                  match embedded c v with
                  | Some (_, _, ums, _, x) => (k, v) :: blank_rest go ps ums x
                  | None => (k, blank v c) :: go s
                  end
              | None => (k, v) :: ps
              end
          | None => if ign then (k, JNull) :: go s else (k, v) :: ps
          end
      | SMp _ e _ _ =>
          match embedded e v with
          | Some (_, _, ums, _, x) => (k, v) :: blank_rest go ps ums x
          | None => (k, blank v e) :: go s
          end
      | SUni _ _ _ ms _ =>
          match v with JSc x => (k, v) :: blank_rest go ps ms x | _ => (k, v) :: ps end
      | _ => (k, v) :: ps
      end.
Proof. destruct s; reflexivity. Qed.

Lemma select_blank ps st t ms cb x l :
  (forall s empty kids vals l, body (blank_body blank ps s) s empty kids vals l = body ps s empty kids vals l) ->
  select P (fun c l => body (blank_rest (fun c => blank_body blank ps c) ps ms x) c true (fresh_kids c) [] l) st t ms cb x l =
  select P (fun c l => body ps c true (fresh_kids c) [] l) st t ms cb x l.
Proof.
  intros IH. unfold select, blank_rest. destruct (vtype_eqb (ty_of x) t); auto.
  destruct (index_of x ms) as [i|]; auto. destruct (nth_error ms i) as [[m c]|]; auto. rewrite IH. auto.
Qed.

Lemma andthen_ext' A Z (r : list event * (exn + A)) (k h : A -> list event -> list event * (exn + Z)) :
  (forall a l, k a l = h a l) -> andthen r k = andthen r h.
Proof. intros H. destruct r as [l [e|a]]; simpl; auto. Qed.

Lemma body_blank ps : Forall (fun kv => B (snd kv)) ps -> forall s empty kids vals l,
  body (blank_body blank ps s) s empty kids vals l = body ps s empty kids vals l.
Proof.
  induction 1 as [|[k v] ps Hv Hps IH]; intros s empty kids vals l; [reflexivity|].
  simpl in Hv. rewrite blank_body_cons. cbn zeta. destruct s; auto.
  - destruct (embedded s v) as [[[[[st t] ums] ucb] x]|] eqn:He.
    + rewrite !body_cons. cbn zeta. unfold value_of. rewrite He, select_blank by auto.
      destruct (select P _ st t ums ucb x l) as [l1 [e|u]]; reflexivity.
    + rewrite !body_cons. cbn zeta. unfold value_of. rewrite (embedded_blank _ _ He), He, Hv.
      destruct (den P v s l) as [l1 [e|u]]; auto. cbn [andthen fst snd].
      destruct (end_map_elem P store ecb k u vals l1) as [l2 [e|vals']]; auto. cbn [andthen]. apply IH.
  - destruct (index_of (SStr k) ms) as [i|] eqn:Hi.
    + destruct (nth_error ms i) as [[m c]|] eqn:Hn; auto.
      destruct (embedded c v) as [[[[[st t] ums] ucb] x]|] eqn:He.
      * rewrite !body_cons. cbn zeta. rewrite Hi, Hn. unfold value_of. rewrite He, select_blank by auto.
        destruct (select P _ st t ums ucb x l) as [l1 [e|u]]; reflexivity.
      * rewrite !body_cons. cbn zeta. rewrite Hi, Hn. unfold value_of. rewrite (embedded_blank _ _ He), He, Hv.
        destruct (den P v c l) as [l1 [e|u]]; auto. cbn [andthen fst snd]. apply IH.
    + destruct ign; auto. rewrite !body_cons. cbn zeta. rewrite Hi. apply IH.
  - destruct v; auto. rewrite !body_cons. cbn zeta. destruct (String.eqb tm ""); auto.
    destruct (String.eqb k tm); auto. apply select_blank; auto.
Qed.

Lemma elems_blank st e cb js : Forall B js -> forall empty vals l,
  elems P (den P) st e cb (map (fun j => blank j e) js) empty vals l = elems P (den P) st e cb js empty vals l.
Proof.
  induction 1 as [|j js Hj _ IH]; intros empty vals l; [reflexivity|]. cbn [map].
  destruct (is_null j) eqn:Hn.
  - destruct j; try discriminate. cbn [blank elems]. apply IH.
  - rewrite !elems_cons by (rewrite ?blank_null; auto). rewrite Hj. apply andthen_ext'. intros w l'.
    destruct st; auto. destruct (v_val w) as [v|]; auto. destruct (storing P v); cbn [andthen]; auto.
Qed.

Theorem den_blank j : B j.
Proof.
  induction j as [|x|js IH|ps IH] using json_ind'; intros s l; auto.
  - destruct s; auto. cbn [blank den]. apply elems_blank; auto.
  - destruct s; auto; cbn [blank].
    + rewrite !den_obj by exact I. apply body_blank; auto.
    + rewrite !den_obj by exact I. apply body_blank; auto.
    + rewrite !den_uni. destruct (String.eqb tm ""); auto. apply body_blank; auto.
Qed.
End Blank.
