(** Specification: what the beginning of a document means for a declaration.

    Like Spec.v, this file does not depend on the model of the code.  A document that
    has only partly arrived is a tree whose last branch is open. *)

From Verif Require Import Spec.
Local Open Scope string_scope.
Set Implicit Arguments.

(** ** Beginnings of arrays and objects *)
Inductive beginning :=
| PtArr (done : list json)                                (* [ v, v         *)
| PtArrIn (done : list json) (q : beginning)                   (* [ v, v, ...    *)
| PtObj (done : list (string * json))                     (* { k:v, k:v     *)
| PtKey (done : list (string * json)) (k : string)        (* { k:v, k:      *)
| PtObjIn (done : list (string * json)) (k : string) (q : beginning). (* { k:v, k: ... *)

Definition member_toks (ps : list (string * json)) : list token :=
  flat_map (fun kv => TKey (fst kv) :: toks (snd kv))%list ps.

(** The tokens reported so far. *)
Fixpoint part_toks (q : beginning) : list token :=
  match q with
  | PtArr d => TArrStart :: flat_map toks d
  | PtArrIn d q => TArrStart :: flat_map toks d ++ part_toks q
  | PtObj d => TMapStart :: member_toks d
  | PtKey d k => TMapStart :: member_toks d ++ [TKey k]
  | PtObjIn d k q => TMapStart :: member_toks d ++ TKey k :: part_toks q
  end%list.

(** What an array or object that is still open shows: it has no value. *)
Definition opened (empty : bool) (kids : list view) : view := View false empty None 0 kids.

Section Part.
Variable P : prog.

(** The type value of a union arrived; its member got the rest so far. *)
Definition pselect (rest : schema -> list event -> out) (t : vtype)
           (ms : list (mspec * schema)) (x : scalar) (l : list event) : out :=
  if vtype_eqb (ty_of x) t then
    match index_of x ms with
    | Some i =>
        match nth_error ms i with
        | Some (m, c) =>
            andthen (rest c l) (fun w l =>
              (l, inr (opened false (set_nth i w (map (fun mp => fresh (snd mp)) ms)))))
        | None => (l, inl XOther) (* impossible *)
        end
    | None => err l ("Unexpected member " ++ name_text P x)
    end
  else bad l (TSc x).

(** The complete elements of an open array; then [stop]. *)
Fixpoint pelems (stop : bool -> list event -> out) (store : bool) (e : schema)
         (js : list json) (empty : bool) (l : list event) : out :=
  match js with
  | [] => stop empty l
  | JNull :: js' => pelems stop store e js' empty l
  | j :: js' =>
      andthen (den P j e l) (fun w l =>
      if store then
        match v_val w with
        | Some v => andthen (l, storing P v) (fun _ l => pelems stop store e js' false l)
        | None => err l msg_unset
        end
      else pelems stop store e js' false l)
  end.

(** The complete members [ps] of an open object; then [stop]. *)
Fixpoint pbody (stop : schema -> bool -> list view -> list event -> out)
         (ps : list (string * json)) (s : schema) (empty : bool) (kids : list view)
         (vals : list (string * value)) (l : list event) {struct ps} : out :=
  match ps with
  | [] => stop s empty kids l
  | (k, v) :: ps' =>
      let rest c l := pbody stop ps' c true (fresh_kids c) [] l in
      match s with
      | SObj _ ms ign _ =>
          match index_of (SStr k) ms with
          | Some i =>
              match nth_error ms i with
              | Some (_, c) =>
                  match embedded c v with
                  | Some (_, t, ms', _, x) =>
                      (* the rest belongs to the embedded union *)
                      andthen (pselect rest t ms' x l) (fun u l =>
                        (l, inr (opened false (set_nth i u kids))))
                  | None =>
                      andthen (den P v c l) (fun w l =>
                        pbody stop ps' s false (set_nth i w kids) vals l)
                  end
              | None => (l, inl XOther) (* impossible *)
              end
          | None =>
              if ign then pbody stop ps' s false kids vals l
              else err l ("Unexpected member " ++ k)
          end
      | SMp store e ecb _ =>
          match embedded e v with
          | Some (_, t, ms', _, x) =>
              andthen (pselect rest t ms' x l) (fun _ l => (l, inr (opened false [])))
          | None =>
              andthen (den P v e l) (fun w l =>
              andthen (end_map_elem P store ecb k w vals l) (fun vals l =>
                pbody stop ps' s false kids vals l))
          end
      | SUni _ t tm ms _ =>
          if String.eqb tm "" then err l msg_emb_union
          else if String.eqb k tm then
            match v with
            | JSc x => pselect rest t ms x l
            | JArr _ => bad l TArrStart
            | JObj _ => bad l TMapStart
            | JNull => bad l TNull
            end
          else err l ("Unexpected member " ++ k)
      | _ => bad l (TKey k)
      end
  end.

(** The text stops after a complete member. *)
Definition stop_here (s : schema) (empty : bool) (kids : list view) (l : list event) : out :=
  (l, inr (opened empty kids)).

(** The text stops after the key [k]. *)
Definition stop_key (k : string) (s : schema) (empty : bool) (kids : list view)
           (l : list event) : out :=
  match s with
  | SObj _ ms ign _ =>
      match index_of (SStr k) ms with
      | Some _ => (l, inr (opened false kids))
      | None => if ign then (l, inr (opened false kids)) else err l ("Unexpected member " ++ k)
      end
  | SMp _ _ _ _ => (l, inr (opened false kids))
  | SUni _ _ tm _ _ =>
      if String.eqb tm "" then err l msg_emb_union
      else if String.eqb k tm then (l, inr (opened empty kids))
      else err l ("Unexpected member " ++ k)
  | _ => bad l (TKey k)
  end.

(** The text stops inside the value of the member [k]; [D c w]: what the beginning of
    that value means for declaration [c], whose parser shows [w]; [arr]: it is an
    array. *)
Definition stop_in (k : string) (arr : bool) (D : schema -> view -> list event -> out)
           (s : schema) (empty : bool) (kids : list view) (l : list event) : out :=
  match s with
  | SObj _ ms ign _ =>
      match index_of (SStr k) ms with
      | Some i =>
          match nth_error ms i, nth_error kids i with
          | Some (_, c), Some w0 =>
              andthen (D c w0 l) (fun w l => (l, inr (opened false (set_nth i w kids))))
          | _, _ => (l, inl XOther) (* impossible *)
          end
      | None => if ign then (l, inr (opened false kids)) else err l ("Unexpected member " ++ k)
      end
  | SMp _ e _ _ =>
      andthen (D e (fresh e) l) (fun _ l => (l, inr (opened false kids)))
  | SUni _ _ tm _ _ =>
      if String.eqb tm "" then err l msg_emb_union
      else if String.eqb k tm then bad l (if arr then TArrStart else TMapStart)
      else err l ("Unexpected member " ++ k)
  | _ => bad l (TKey k)
  end.

Definition is_arr (q : beginning) : bool :=
  match q with PtArr _ | PtArrIn _ _ => true | _ => false end.

(** The beginning [q] of a value for declaration [s]; [w0]: what its parser showed
    before (it matters for Ignore only). *)
Definition parr (stop : bool -> list event -> out) (d : list json) (s : schema) (w0 : view)
           (l : list event) : out :=
  match s with
  | SArr store e _ => pelems stop store e d true l
  | SIgn => (l, inr w0)
  | _ => bad l TArrStart
  end.

Definition pobj (stop : schema -> bool -> list view -> list event -> out)
           (d : list (string * json)) (s : schema) (w0 : view) (l : list event) : out :=
  match s with
  | SVal _ _ | SArr _ _ _ => bad l TMapStart
  | SIgn => (l, inr w0)
  | SUni _ _ tm _ _ =>
      if String.eqb tm "" then err l msg_emb_union
      else pbody stop d s true (fresh_kids s) [] l
  | _ => pbody stop d s true (fresh_kids s) [] l
  end.

Definition elem_of (s : schema) : schema := match s with SArr _ e _ => e | _ => s end.

Fixpoint pden (q : beginning) (s : schema) (w0 : view) (l : list event) : out :=
  match q with
  | PtArr d => parr (fun empty l => (l, inr (opened empty []))) d s w0 l
  | PtArrIn d q =>
      parr (fun _ l => andthen (pden q (elem_of s) (fresh (elem_of s)) l)
                               (fun _ l => (l, inr (opened false []))))
           d s w0 l
  | PtObj d => pobj stop_here d s w0 l
  | PtKey d k => pobj (stop_key k) d s w0 l
  | PtObjIn d k q => pobj (stop_in k (is_arr q) (pden q)) d s w0 l
  end.
End Part.

(** ** Supported beginnings: the exclusions of [supported] (Spec.v) *)
Fixpoint part_no_null (q : beginning) : bool :=
  match q with
  | PtArr d => forallb no_null d
  | PtArrIn d q => forallb no_null d && part_no_null q
  | PtObj d | PtKey d _ => forallb (fun kv => no_null (snd kv)) d
  | PtObjIn d _ q => forallb (fun kv => no_null (snd kv)) d && part_no_null q
  end.

Fixpoint psup_body (stop : schema -> bool) (ps : list (string * json)) (s : schema)
         {struct ps} : bool :=
  match ps with
  | [] => stop s
  | (k, v) :: ps' =>
      let rest c := psup_body stop ps' c in
      match s with
      | SObj _ ms ign _ =>
          match index_of (SStr k) ms with
          | Some i =>
              match nth_error ms i with
              | Some (_, c) => sup_value supported rest s c v
              | None => true
              end
          | None => if ign then ignorable v && rest s else true
          end
      | SMp _ e _ _ => sup_value supported rest s e v
      | SUni _ t tm ms _ =>
          if String.eqb tm "" then true
          else if String.eqb k tm then
            match v with
            | JSc x => sup_select rest t ms x
            | JArr _ => true
            | JObj _ | JNull => false
            end
          else true
      | _ => true
      end
  end.

Definition psup_in (k : string) (q : beginning) (sup : schema -> bool) (s : schema) : bool :=
  match s with
  | SObj _ ms ign _ =>
      match index_of (SStr k) ms with
      | Some i => match nth_error ms i with Some (_, c) => sup c | None => true end
      | None => if ign then part_no_null q else true
      end
  | SMp _ e _ _ => sup e
  | SUni _ _ tm _ _ =>
      if String.eqb tm "" then true
      else if String.eqb k tm then is_arr q
      else true
  | _ => true
  end.

Definition psup_arr (inner : schema -> bool) (ign : bool) (d : list json) (s : schema) : bool :=
  match s with
  | SArr _ e _ =>
      negb (is_ign e) &&
      forallb (fun j => if is_null j then is_value e else supported j e) d && inner e
  | SIgn => ign
  | _ => true
  end.

Definition psup_obj (stop : schema -> bool) (ign : bool) (d : list (string * json)) (s : schema) : bool :=
  match s with
  | SVal _ _ | SArr _ _ _ => true
  | SIgn => ign
  | SUni _ _ tm _ _ => if String.eqb tm "" then true else psup_body stop d s
  | _ => psup_body stop d s
  end.

Fixpoint psupported (q : beginning) (s : schema) : bool :=
  match q with
  | PtArr d => psup_arr (fun _ => true) (part_no_null (PtArr d)) d s
  | PtArrIn d q => psup_arr (psupported q) (part_no_null (PtArrIn d q)) d s
  | PtObj d => psup_obj (fun _ => true) (part_no_null (PtObj d)) d s
  | PtKey d k => psup_obj (fun _ => true) (part_no_null (PtKey d k)) d s
  | PtObjIn d k q => psup_obj (psup_in k q (psupported q)) (part_no_null (PtObjIn d k q)) d s
  end.
