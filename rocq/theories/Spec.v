(** Specification: what a document means for a declaration.

    This file does not depend on the model of the code ([Model.v]): it only uses
    the data types of [Base.v].  There is no dispatcher, no stack, no parser
    object here - only recursion over the JSON tree. *)

From Verif Require Export Base.
Local Open Scope string_scope.
Set Implicit Arguments.

(** ** Documents *)
Inductive json :=
| JNull
| JSc (x : scalar)
| JArr (l : list json)
| JObj (ps : list (string * json)).

(** The tokens of a document, as a JSON tokenizer reports them. *)
Fixpoint toks (j : json) : list token :=
  match j with
  | JNull => [TNull]
  | JSc x => [TSc x]
  | JArr l => TArrStart :: flat_map toks l ++ [TArrEnd]
  | JObj ps =>
      TMapStart :: flat_map (fun kv => TKey (fst kv) :: toks (snd kv)) ps ++ [TMapEnd]
  end%list.

(** ** The program around the library *)

(** What a callback does: it may call pop() on the parser it got and on the
    members below it (a path of member indices; the empty path is the parser
    itself), an SCustomObject callback may assign the value, and it ends. *)
Record cbact := mkA {
  a_pops : list (list nat);
  a_new : option value;
  a_res : cbres
}.

(** The program: its callbacks, the text of doubles, and the exceptions that storing a
    value throws (its types have user-written assignment operators and constructors). *)
Record prog := mkP {
  p_cb : cbid -> list event -> obs -> cbact;
  p_fmt : SpecFloat.spec_float -> string;
  p_store : value -> option exn
}.

(** ** Views *)

(** A parser that has not parsed anything. *)
Fixpoint fresh (s : schema) : view :=
  match s with
  | SObj _ ms _ _ | SUni _ _ _ ms _ =>
      View false true None 0 (map (fun mp => fresh (snd mp)) ms)
  | _ => View false true None 0 []
  end.

Definition fresh_kids (s : schema) : list view := v_kids (fresh s).

(** pop() on a parser: if it holds a value, it becomes unset. *)
Definition popped (w : view) : view :=
  match v_val w with
  | Some _ => View false (v_empty w) None 0 (v_kids w)
  | None => w
  end.

Fixpoint pop_at (rel : list nat) (w : view) : view :=
  match rel with
  | [] => popped w
  | n :: rel' =>
      match nth_error (v_kids w) n with
      | Some c =>
          View (v_set w) (v_empty w) (v_val w) (v_cur w)
               (set_nth n (pop_at rel' c) (v_kids w))
      | None => w
      end
  end.

Definition pops (a : cbact) (w : view) : view :=
  fold_left (fun w rel => pop_at rel w) (a_pops a) w.

(** ** Outcomes: the callback history, and an error or the final view *)
Definition out := (list event * (exn + view))%type.

Definition err (l : list event) (m : string) : out := (l, inl (XStd m)).
Definition bad (l : list event) (t : token) : out := (l, inl (unexpected t)).

(** If the first part succeeds, go on with the second one. *)
Definition andthen {A B} (r : list event * (exn + A))
           (k : A -> list event -> list event * (exn + B)) : list event * (exn + B) :=
  match r with
  | (l, inl e) => (l, inl e)
  | (l, inr a) => k a l
  end.

(** The first member with an equal name. *)
Fixpoint index_of {A} (nm : scalar) (ms : list (mspec * A)) : option nat :=
  match ms with
  | [] => None
  | (m, _) :: r =>
      if sc_eqb (m_name m) nm then Some 0 else option_map S (index_of nm r)
  end.

Section Den.
Variable P : prog.

Definition nothing : cbact := mkA [] None CTrue.

(** Invoke a callback, if there is one. *)
Definition invoke (c : option cbid) (o : obs) (falsemsg : string) (l : list event)
           (k : cbact -> list event -> out) : out :=
  match c with
  | None => k nothing l
  | Some c =>
      let a := p_cb P c l o in
      let l' := (l ++ [Ev c o])%list in
      match a_res a with
      | CTrue => k a l'
      | CFalse => err l' falsemsg
      | CThrow m => err l' m
      | CThrowOther => (l', inl XOther)
      end
  end.

Definition name_text (x : scalar) : string := fmt_scalar (p_fmt P) x.

(** *** End of an entity *)

Definition end_value (x : scalar) (cb : option cbid) (l : list event) : out :=
  invoke cb (OVal (VSc x)) msg_cb_false l
         (fun _ l => (l, inr (View true false (Some (VSc x)) 0 []))).

Definition end_array (store : bool) (cb : option cbid) (empty : bool) (vals : list value)
           (l : list event) : out :=
  if store then
    invoke cb (OVal (VVec vals)) msg_cb_false l
           (fun _ l => (l, inr (View true empty (Some (VVec vals)) 0 [])))
  else
    let w := View true empty None 0 [] in
    invoke cb (OSelf w) msg_cb_false l (fun a l => (l, inr (pops a w))).

Definition end_map (store : bool) (cb : option cbid) (empty : bool)
           (vals : list (string * value)) (l : list event) : out :=
  let w := View true empty (if store then Some (VMap vals) else None) 0 [] in
  invoke cb (OSelf w) msg_cb_false l (fun a l => (l, inr (pops a w))).

(** The name of the last mandatory member without a value. *)
Fixpoint missing (ms : list (mspec * schema)) (kids : list view) : option scalar :=
  match ms, kids with
  | (m, _) :: ms', w :: kids' =>
      match missing ms' kids' with
      | Some x => Some x
      | None => if v_set w || m_opt m then None else Some (m_name m)
      end
  | _, _ => None
  end.

Definition mandatory_msg (n : string) := "Mandatory member " ++ n ++ " is not present".
Definition no_default_msg (n : string) :=
  "Optional member " ++ n ++ " does not have a default value".

(** A value that is stored. *)
Definition storing (v : value) : exn + value :=
  match p_store P v with Some e => inl e | None => inr v end.

(** The value of a member of an SAutoObject or SUnion; [n]: its name in errors. *)
Definition member_value (m : mspec) (w : view) (n : string) : exn + value :=
  if v_set w then
    match v_val w with Some v => storing v | None => inl (XStd msg_unset) end
  else if m_opt m then
    match m_def m with Some d => storing d | None => inl (XStd (no_default_msg n)) end
  else inl (XStd (mandatory_msg n)).

(** The values of all members, the error of the last member that has none. *)
Fixpoint member_values (ms : list (mspec * schema)) (kids : list view)
  : exn + list value :=
  match ms, kids with
  | (m, _) :: ms', w :: kids' =>
      match member_values ms' kids' with
      | inl e => inl e
      | inr vs =>
          match member_value m w (name_text (m_name m)) with
          | inl e => inl e
          | inr v => inr (v :: vs)
          end
      end
  | _, _ => inr []
  end.

Definition cannot_set_msg (e : exn) :=
  "Can not set value: " ++ match e with XStd m => c_str m | XOther => "unknown exception" end.

Definition end_object (k : okind) (ms : list (mspec * schema)) (cb : option cbid)
           (empty : bool) (kids : list view) (l : list event) : out :=
  if empty then (l, inr (View false true None 0 kids))
  else
    match k with
    | OPlain =>
        match missing ms kids with
        | Some x => err l (mandatory_msg (name_text x))
        | None =>
            let w := View true false None 0 kids in
            invoke cb (OSelf w) msg_cb_false l (fun a l => (l, inr (pops a w)))
        end
    | OCustom =>
        match missing ms kids with
        | Some x => err l (mandatory_msg (name_text x))
        | None =>
            let w v := View true false (Some v) 0 kids in
            invoke cb (OCust (w (VCust None)) (VCust None)) msg_cb_false l
                   (fun a l => (l, inr (pops a (w (VCust (a_new a))))))
        end
    | OAuto =>
        match member_values ms kids with
        | inl m => err l (cannot_set_msg m)
        | inr vs =>
            invoke cb (OVal (VTup vs)) msg_cb_false l
                   (fun _ l => (l, inr (View true false (Some (VTup vs)) 0 (map popped kids))))
        end
    end.

(** End of a union whose member [i] was selected; [m] is its specification and
    [w] its view. *)
Definition end_union (store : bool) (cb : option cbid) (i : nat) (m : mspec) (w : view)
           (kids : list view) (l : list event) : out :=
  let n := "#" ++ n2s i in
  if store then
    match member_value m w n with
    | inl e => err l (cannot_set_msg e)
    | inr v =>
        invoke cb (OVal (VVar i v)) msg_cb_false l
               (fun _ l => (l, inr (View true false (Some (VVar i v)) i
                                         (set_nth i (popped w) kids))))
    end
  else
    if v_set w || m_opt m then
      let u := View true false None i (set_nth i w kids) in
      invoke cb (OSelf u) msg_cb_false l (fun a l => (l, inr (pops a u)))
    else err l (mandatory_msg n).

(** An element of a map has been parsed: the element callback, then storing. *)
Definition end_map_elem (store : bool) (ecb : option cbid) (k : string) (w : view)
           (vals : list (string * value)) (l : list event)
  : list event * (exn + list (string * value)) :=
  andthen (invoke ecb (OElem k w) msg_ecb_false l (fun a l => (l, inr (pops a w))))
  (fun w l =>
     if store then
       match v_val w with
       | Some v => andthen (l, storing v) (fun v l => (l, inr (map_insert k v vals)))
       | None => (l, inl (XStd msg_unset))
       end
     else (l, inr vals)).

(** *** Recursion over the document *)

(** A scalar for an embedded union: the type that selects the member which parses
    the rest of the enclosing object. *)
Definition embedded (c : schema) (v : json)
  : option (bool * vtype * list (mspec * schema) * option cbid * scalar) :=
  match c, v with
  | SUni st t tm ms cb, JSc x => if String.eqb tm "" then Some (st, t, ms, cb, x) else None
  | _, _ => None
  end.

(** The type value [x] of a union: it selects the member which parses the rest of
    the object ([rest]); then the union ends. *)
Definition select (rest : schema -> list event -> out) (store : bool) (t : vtype)
           (ms : list (mspec * schema)) (cb : option cbid) (x : scalar) (l : list event) : out :=
  if vtype_eqb (ty_of x) t then
    match index_of x ms with
    | Some i =>
        match nth_error ms i with
        | Some (m, c) =>
            andthen (rest c l)
                    (fun w l => end_union store cb i m w (map (fun mp => fresh (snd mp)) ms) l)
        | None => (l, inl XOther) (* impossible *)
        end
    | None => err l ("Unexpected member " ++ name_text x)
    end
  else bad l (TSc x).

Section Body.
(** Meaning of the member values and elements. *)
Variable D : json -> schema -> list event -> out.

(** Elements of an array. *)
Fixpoint elems (store : bool) (e : schema) (cb : option cbid) (js : list json)
         (empty : bool) (vals : list value) (l : list event) : out :=
  match js with
  | [] => end_array store cb empty vals l
  | JNull :: js' => elems store e cb js' empty vals l
  | j :: js' =>
      andthen (D j e l) (fun w l =>
      if store then
        match v_val w with
        | Some v =>
            andthen (l, storing v) (fun v l =>
            elems store e cb js' false (vals ++ [v])%list l)
        | None => err l msg_unset
        end
      else elems store e cb js' false vals l)
  end.

(** Value [v] of a member or map element of declaration [c].  The flag tells
    whether an embedded union took the rest of the enclosing object. *)
Definition value_of (rest : schema -> list event -> out) (c : schema) (v : json)
           (l : list event) : list event * (exn + (bool * view)) :=
  match embedded c v with
  | Some (st, t, ms, cb, x) =>
      andthen (select rest st t ms cb x l) (fun u l => (l, inr (true, u)))
  | None => andthen (D v c l) (fun w l => (l, inr (false, w)))
  end.

(** The rest [ps] of the members of an object, and its end, for declaration [s].
    [empty]: no member seen yet; [kids]: the members' views (objects and unions);
    [vals]: the stored pairs (maps). *)
Fixpoint body (ps : list (string * json)) (s : schema) (empty : bool) (kids : list view)
         (vals : list (string * value)) (l : list event) {struct ps} : out :=
  match ps with
  | [] =>
      match s with
      | SObj k ms _ cb => end_object k ms cb empty kids l
      | SMp store _ _ cb => end_map store cb empty vals l
      | SUni _ _ _ _ _ => (l, inr (View false true None 0 kids))
      | _ => bad l TMapEnd
      end
  | (k, v) :: ps' =>
      let rest c l := body ps' c true (fresh_kids c) [] l in
      match s with
      | SObj knd ms ign cb =>
          match index_of (SStr k) ms with
          | Some i =>
              match nth_error ms i with
              | Some (_, c) =>
                  andthen (value_of rest c v l) (fun r l =>
                  if fst r then end_object knd ms cb false (set_nth i (snd r) kids) l
                  else body ps' s false (set_nth i (snd r) kids) vals l)
              | None => (l, inl XOther) (* impossible *)
              end
          | None =>
              if ign then body ps' s false kids vals l
              else err l ("Unexpected member " ++ k)
          end
      | SMp store e ecb cb =>
          andthen (value_of rest e v l) (fun r l =>
          andthen (end_map_elem store ecb k (snd r) vals l) (fun vals l =>
          if fst r then end_map store cb false vals l
          else body ps' s false kids vals l))
      | SUni store t tm ms cb =>
          if String.eqb tm "" then err l msg_emb_union
          else if String.eqb k tm then
            match v with
            | JSc x => select rest store t ms cb x l
            | JArr _ => bad l TArrStart
            | JObj _ => bad l TMapStart
            | JNull => bad l TNull
            end
          else err l ("Unexpected member " ++ k)
      | _ => bad l (TKey k)
      end
  end.
End Body.

(** A whole value [j] for declaration [s]. *)
Fixpoint den (j : json) (s : schema) (l : list event) : out :=
  match j with
  | JNull => (l, inr (fresh s))
  | JSc x =>
      match s with
      | SVal t cb => if vtype_eqb (ty_of x) t then end_value x cb l else bad l (TSc x)
      | SIgn => (l, inr (View true true None 0 []))
      | _ => bad l (TSc x)
      end
  | JArr js =>
      match s with
      | SArr store e cb => elems den store e cb js true [] l
      | SIgn => (l, inr (View true true None 0 []))
      | _ => bad l TArrStart
      end
  | JObj ps =>
      match s with
      | SVal _ _ | SArr _ _ _ => bad l TMapStart
      | SIgn => (l, inr (View true true None 0 []))
      | SUni _ _ tm _ _ =>
          if String.eqb tm "" then err l msg_emb_union
          else body den ps s true (fresh_kids s) [] l
      | _ => body den ps s true (fresh_kids s) [] l
      end
  end.
End Den.

(** ** Supported documents

    [supported s j] excludes exactly the places where the library is known not to
    follow [den] (each exclusion is justified by a refutation in Findings.v):
    - null elements in arrays of anything but Value;
    - nested nulls inside an ignored value;
    - a scalar of the type member's type where a union stands alone (array
      element, document, member of a standalone union);
    - a null or an object as the type value of a standalone union;
    - arrays of Ignore (not constructible through the public headers). *)
Fixpoint no_null (j : json) : bool :=
  match j with
  | JNull => false
  | JSc _ => true
  | JArr l => forallb no_null l
  | JObj ps => forallb (fun kv => no_null (snd kv)) ps
  end.

Definition is_null (j : json) : bool := match j with JNull => true | _ => false end.
Definition ignorable (j : json) : bool := is_null j || no_null j.
Definition is_value (s : schema) : bool := match s with SVal _ _ => true | _ => false end.
Definition is_ign (s : schema) : bool := match s with SIgn => true | _ => false end.

Definition sup_select (rest : schema -> bool) (t : vtype) (ms : list (mspec * schema))
           (x : scalar) : bool :=
  if vtype_eqb (ty_of x) t then
    match index_of x ms with
    | Some i => match nth_error ms i with Some (_, c) => rest c | None => true end
    | None => true
    end
  else true.

Section SupBody.
Variable sup : json -> schema -> bool.

Definition sup_value (rest : schema -> bool) (s c : schema) (v : json) : bool :=
  match embedded c v with
  | Some (_, t, ms, _, x) => sup_select rest t ms x
  | None => sup v c && rest s
  end.

Fixpoint sup_body (ps : list (string * json)) (s : schema) {struct ps} : bool :=
  match ps with
  | [] => true
  | (k, v) :: ps' =>
      let rest c := sup_body ps' c in
      match s with
      | SObj _ ms ign _ =>
          match index_of (SStr k) ms with
          | Some i =>
              match nth_error ms i with Some (_, c) => sup_value rest s c v | None => true end
          | None => if ign then ignorable v && rest s else true
          end
      | SMp _ e _ _ => sup_value rest s e v
      | SUni _ t tm ms _ =>
          if String.eqb tm "" then true
          else if String.eqb k tm then
            match v with
            | JSc x => sup_select rest t ms x
            | JArr _ => true
            | JObj _ | JNull => false
            end
          else true
      | _ => true
      end
  end.
End SupBody.

Fixpoint supported (j : json) (s : schema) : bool :=
  match j with
  | JNull => true
  | JSc x => match s with SUni _ t _ _ _ => negb (vtype_eqb (ty_of x) t) | _ => true end
  | JArr js =>
      match s with
      | SArr _ e _ =>
          negb (is_ign e) &&
          forallb (fun j => if is_null j then is_value e else supported j e) js
      | SIgn => ignorable j
      | _ => true
      end
  | JObj ps =>
      match s with
      | SVal _ _ | SArr _ _ _ => true
      | SIgn => ignorable j
      | SUni _ _ tm _ _ => if String.eqb tm "" then true else sup_body supported ps s
      | _ => sup_body supported ps s
      end
  end.
