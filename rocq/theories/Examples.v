(** Concrete, non-trivial cases that meet the hypotheses of the property theorems:
    each example applies the theorem to JSON text (tokenizer of Json.v). *)

From Verif Require Import Spec Model Infra Total Safe Refine Main Api ApiProofs History ApiFacts
  Outcome DenFacts Closed Accept Complete Order Calls Members Free Round Looks Blank Access Findings
  Move MoveState Unset Strtod Json Grammar Grammar2 Depth Arrays Typed Callbacks Observe ObserveApi
  Docs1 Docs2 Docs3 Docs4 Docs5 Docs6 Docs7 Docs8 StreamSpec Stream Log StreamApi Docs9 Docs10 Docs11 Docs12 Alloc Docs13 Log Pops Docs14 Kept Docs15 Same Lock LockApi JsonPlaced Docs16 From Docs17 Space Docs18 Cut Docs19 Errors Docs20 Veil Docs21 Newer Lighter Docs22 Time Docs23 Docs24 Readme Docs25 Grown Docs26 Docs27 Shuffle Docs28 Docs29 Docs30 Docs31 Properties.
From Coq Require Import Permutation Sorting.Sorted SpecFloat.
Local Open Scope string_scope.
Set Implicit Arguments.

(** JSON text with ' for the double quote. *)
Fixpoint js (s : string) : string :=
  match s with
  | EmptyString => EmptyString
  | String c r => String (if Ascii.eqb c "'"%char then ascii_of_N 34 else c) (js r)
  end.

(** The texts of the buffers 0, 1, ... *)
Definition texts (l : list string) : mem := mem_of (map js l).
Definition fresh_parser (s : schema) : api json_tk := start json_tk 0 (mk s) [].

(** The outcome of the text in the buffers 0, 1, ..., for a new Parser. *)
Notation outcome_of P s l bufs := (doc 0 ye P (texts l) 0 bufs (fresh_parser s)).

Ltac reads_new :=
  split; [apply h_new|split; [apply at_start_new|]];
  eexists; eexists; split; [vm_compute; reflexivity|vm_compute; reflexivity].

Definition int := SVal TyInt None.
Definition text := SVal TyStr None.
Definition must (n : string) (s : schema) : mspec * schema := (mkM (SStr n) false None, s).
Definition may (n : string) (s : schema) : mspec * schema := (mkM (SStr n) true None, s).
Definition dflt (n : string) (v : value) (s : schema) : mspec * schema := (mkM (SStr n) true (Some v), s).

(** ** A declaration of every kind of parser, with callbacks 1-9

    An object with an identifier, a list of numbers, a map from names to pairs, unknown
    members ignored, and an embedded union "kind" of two objects. *)
Definition pair_s := SObj OAuto [must "x" int; dflt "y" (VSc (SInt 0)) int] false None.
Definition big : schema :=
  SObj OPlain
    [must "id" (SVal TyInt (Some 1));
     may "list" (SArr true int (Some 2));
     may "map" (SMp true pair_s (Some 3) (Some 4));
     may "kind" (SUni false TyStr "" 
        [(mkM (SStr "a") false None, SObj OPlain [must "len" (SVal TyInt (Some 5))] false (Some 6));
         (mkM (SStr "b") false None, SObj OCustom [may "s" text] false (Some 7))] (Some 8))]
    true (Some 9).

(** In two chunks that cut a string. *)
Definition big_text : list string :=
  ["{'id':1,'li"; "st':[1,null,-20],'map':{'p':{'x':1,'y':2},'q':{'x':3}}, 'extra':{'a':[{}]},'kind':'a','len':5}"].
Definition big_json : json :=
  JObj [("id", JSc (SInt 1)); ("list", JArr [JSc (SInt 1); JNull; JSc (SInt (-20))]);
        ("map", JObj [("p", JObj [("x", JSc (SInt 1)); ("y", JSc (SInt 2))]); ("q", JObj [("x", JSc (SInt 3))])]);
        ("extra", JObj [("a", JArr [JObj []])]);
        ("kind", JSc (SStr "a")); ("len", JSc (SInt 5))].

Lemma big_reads : reads 0 ye big (fresh_parser big) (texts big_text) 0 [1] big_json.
Proof. reads_new. Qed.

Lemma big_supported : supported big_json big = true.
Proof. reflexivity. Qed.

(** C03 (and C19, C21, C28, C29): the document is accepted with these callbacks. *)
Definition big_log : list event :=
  [Ev 1 (OVal (VSc (SInt 1)));
   Ev 2 (OVal (VVec [VSc (SInt 1); VSc (SInt (-20))]));
   Ev 3 (OElem "p" (View true false (Some (VTup [VSc (SInt 1); VSc (SInt 2)])) 0
                      [View false false None 0 []; View false false None 0 []]));
   Ev 3 (OElem "q" (View true false (Some (VTup [VSc (SInt 3); VSc (SInt 0)])) 0
                      [View false false None 0 []; View false true None 0 []]));
   Ev 4 (OSelf (View true false (Some (VMap [("p", VTup [VSc (SInt 1); VSc (SInt 2)]);
                                             ("q", VTup [VSc (SInt 3); VSc (SInt 0)])])) 0 []));
   Ev 5 (OVal (VSc (SInt 5)));
   Ev 6 (OSelf (View true false None 0 [View true false (Some (VSc (SInt 5))) 0 []]))].

Example ex_C03 : exists e1 e2 w,
  outcome_of yes big big_text [1] = Parsed (big_log ++ [Ev 8 e1; Ev 9 e2])%list w /\ v_set w = true.
Proof.
  do 3 eexists. split.
  - etransitivity; [exact (@C03_document_outcome _ _ _ yes _ _ _ _ _ _ big_reads big_supported)|vm_compute; reflexivity].
  - reflexivity.
Qed.

(** The same by running the model. *)
Example ex_C03_run : outcome_of yes big big_text [1] = expected (den yes big_json big []).
Proof. vm_compute. reflexivity. Qed.

Lemma big_verdict : verdict big_json big <> None.
Proof. vm_compute. discriminate. Qed.

Lemma yes_agreeable : agreeable yes.
Proof. split; [intros c l o; split; reflexivity|reflexivity]. Qed.

Lemma yes_stored : own_types_stored yes.
Proof. intros s v _. reflexivity. Qed.

Example ex_C19 : exists l w, outcome_of yes big big_text [1] = Parsed l w.
Proof.
  apply (proj2 (@C19_accepted_iff_matches _ _ _ _ _ _ _ _ _ _ yes_agreeable big_reads big_supported)). exact big_verdict.
Qed.

Example ex_C28 : ids big_json big = [1; 2; 3; 3; 4; 5; 6; 8; 9].
Proof. reflexivity. Qed.

(** ** Histories *)

(** The Parser after a call. *)
Definition state_after (r : ares json_tk) (a : api json_tk) : api json_tk :=
  match r with AOk a' | AThrow _ a' => a' | _ => a end.

(** After the document above, the user pops the list, and parses again. *)
Definition big1 : api json_tk :=
  state_after (document (lift yes) 0 ye (texts big_text) [0; 1] (fresh_parser big)) (fresh_parser big).
Definition big2 : api json_tk := user_pop [Mem 1] big1.
Definition big_text2 : list string := ["{'id':2,'kind':'b','s':'x'}"].
Definition big_json2 : json := JObj [("id", JSc (SInt 2)); ("kind", JSc (SStr "b")); ("s", JSc (SStr "x"))].

(** (Computing a whole state would normalise the tokenizer's functions as well.) *)
Definition is_ok (r : ares json_tk) : bool := match r with AOk _ => true | _ => false end.
Lemma ok_state r a : is_ok r = true -> r = AOk (state_after r a).
Proof. destruct r; simpl; congruence. Qed.

Lemma big1_ok : document (lift yes) 0 ye (texts big_text) [0; 1] (fresh_parser big) = AOk big1.
Proof. apply ok_state. vm_compute. reflexivity. Qed.

Lemma big2_reads : reads 0 ye big big2 (texts big_text2) 0 [] big_json2.
Proof.
  split; [|split].
  - apply h_pop. destruct big_reads as (_ & _ & bs & st & H1 & H2).
    apply (@h_document _ _ _ _ _ _ _ _ _ _ _ _ _ (h_new _ _ _ _ _) H1 H2 big_supported big1_ok).
  - left. vm_compute. reflexivity.
  - eexists; eexists; split; [vm_compute; reflexivity|vm_compute; reflexivity].
Qed.

Example ex_C21 : doc 0 ye yes (texts big_text2) 0 [] big2 =
                 doc 0 ye yes (texts big_text2) 0 [] (start json_tk 0 (mk big) (past big2)).
Proof. exact (@C21_like_new _ _ _ yes _ _ _ _ _ _ big2_reads eq_refl). Qed.

(** It is accepted, after the 9 callbacks of the first document. *)
Example ex_C21_run : exists evs w, doc 0 ye yes (texts big_text2) 0 [] big2 = Parsed (past big2 ++ evs) w /\
  map ev_id evs = [1; 7; 8; 9] /\ List.length (past big2) = 9.
Proof. do 2 eexists. split; [|split]; [vm_compute; reflexivity|reflexivity|vm_compute; reflexivity]. Qed.

(** A failed document in between, for a declaration without arrays. *)
Definition obj2 : schema := SObj OPlain [must "a" int; may "b" (SMp true text None None)] false (Some 4).
Definition obj2_ops : list op :=
  [OpParse (texts ["{'a':1,'b':{'k':3"]) 0; OpFinish (texts ["{'a':1,'b':{'k':3"]);
   OpParse (texts ["{'a':1}"]) 0; OpFinish (texts ["{'a':1}"])].
Definition obj2_after : api json_tk :=
  state_after (do_ops (lift yes) 0 ye obj2_ops (fresh_parser obj2)) (fresh_parser obj2).

Example ex_C21_errors :
  doc 0 ye yes (texts ["{'b':{'k':'v'},'a':5}"]) 0 [] obj2_after =
  doc 0 ye yes (texts ["{'b':{'k':'v'},'a':5}"]) 0 [] (start json_tk 0 (mk obj2) (past obj2_after)) /\
  (* the first parse() did fail, and the second document was parsed *)
  past obj2_after = [Ev 4 (OSelf (View true false None 0 [View true false (Some (VSc (SInt 1))) 0 []; View false true None 0 []]))] /\
  exists l w, doc 0 ye yes (texts ["{'b':{'k':'v'},'a':5}"]) 0 [] obj2_after = Parsed l w.
Proof.
  split; [|split].
  - eapply C21_after_errors with (E := lift yes) (os := obj2_ops) (l := [])
      (j := JObj [("b", JObj [("k", JSc (SStr "v"))]); ("a", JSc (SInt 5))]).
    + reflexivity.
    + apply ok_state. vm_compute. reflexivity.
    + left. vm_compute. reflexivity.
    + vm_compute. reflexivity.
    + vm_compute. reflexivity.
    + reflexivity.
  - vm_compute. reflexivity.
  - do 2 eexists. vm_compute. reflexivity.
Qed.

(** C21 with arrays: after big_text, a document that closes its array and then fails;
    the callback of the array fails at the ']' of the next one; then a good document. *)
Definition no2 : prog := mkP (fun c _ _ => mkA [] None (if Nat.eqb c 2 then CFalse else CTrue)) (fun _ => "?") (fun _ => None).
Definition bad_text : list string := ["{'list':[1,2],'i"; "d':true}"].
Definition big3 : api json_tk :=
  state_after (document (lift yes) 0 ye (texts bad_text) [0; 1] big2) big2.
Definition bad_text4 : list string := ["{'list':[3]}"].
Definition big4 : api json_tk :=
  state_after (document (lift no2) 0 ye (texts bad_text4) [0] big3) big3.

Definition is_throw (r : ares json_tk) : option perr := match r with AThrow x _ => Some x | _ => None end.
Lemma throw_state r a x : is_throw r = Some x -> r = AThrow x (state_after r a).
Proof. destruct r; simpl; congruence. Qed.

Lemma big3_history : history 0 ye big big3 /\ at_start big3.
Proof.
  assert (Hd : exists x, document (lift yes) 0 ye (texts bad_text) [0; 1] big2 = AThrow x big3).
  { eexists. apply throw_state. vm_compute. reflexivity. }
  split; [|left; vm_compute; reflexivity].
  refine (@h_closed json_tk 0 ye big big2 (lift yes) (texts bad_text) 0 [1] _ big3 eq_refl _ _ eq_refl (json_in_order _) _ (or_intror Hd)).
  - apply h_pop. exact (@h_document json_tk 0 ye big (fresh_parser big) yes (texts big_text) 0 [1] _ big_json (J [] EDone LNone) big1
      (h_new _ _ _ _ _) eq_refl eq_refl big_supported big1_ok).
  - left. vm_compute. reflexivity.
  - exists [TMapStart; TKey "list"; TArrStart; TSc (SInt 1); TSc (SInt 2); TArrEnd; TKey "id"], [TSc (SBool true); TMapEnd].
    eexists. split; [vm_compute; reflexivity|]. split; [vm_compute; reflexivity|]. left. split; [reflexivity|]. right.
    do 4 eexists. split; [reflexivity|]. vm_compute. reflexivity.
Qed.

Example ex_C21_C33_arrays :
  doc 0 ye yes (texts big_text) 0 [1] big4 = doc 0 ye yes (texts big_text) 0 [1] (start json_tk 0 (mk big) (past big4)) /\
  (exists l w, doc 0 ye yes (texts big_text) 0 [1] big4 = Parsed l w) /\
  doc 7 ye yes (texts big_text) 0 [1] (start json_tk 7 (m_root (a_m big3)) []) = doc 7 ye yes (texts big_text) 0 [1] (start json_tk 7 (mk big) []).
Proof.
  destruct big3_history as [Hh Ha].
  assert (Hd : exists x, document (lift no2) 0 ye (texts bad_text4) [0] big3 = AThrow x big4).
  { eexists. apply throw_state. vm_compute. reflexivity. }
  split; [|split].
  - refine (@C21_after_closed_arrays json_tk (lift no2) 0 ye yes big big3 big4 (texts bad_text4) 0 [] _ (texts big_text) 0 [1] _ big_json
      (J [] EDone LNone) eq_refl Hh Ha eq_refl (json_in_order _) _ (or_intror Hd) eq_refl eq_refl eq_refl).
    exists [TMapStart; TKey "list"; TArrStart; TSc (SInt 3)], [TArrEnd; TMapEnd]. eexists.
    split; [vm_compute; reflexivity|]. split; [vm_compute; reflexivity|]. right. split; [reflexivity|].
    do 3 eexists. split; [reflexivity|]. split; [vm_compute; reflexivity|]. split; vm_compute; discriminate.
  - do 2 eexists. vm_compute. reflexivity.
  - exact (@C33_arrays_reattached json_tk 0 7 ye yes big big3 [] (texts big_text) 0 [1] _ big_json (J [] EDone LNone) Hh eq_refl eq_refl eq_refl).
Qed.

(** ** C01, C02, C23, C32: an incomplete document in the middle of which the parser
    stands; the stack is four deep. *)
Definition mid : api json_tk :=
  state_after (parse (lift yes) 0 ye (texts ["{'id':1,'map':{'p':{'x':1"]) 0 (fresh_parser big)) (fresh_parser big).
Example ex_C32 : m_stack (a_m mid) = [[Mem 2; Elem; Mem 0]; [Mem 2; Elem]; [Mem 2]; []].
Proof. vm_compute. reflexivity. Qed.
Example ex_C02 : no_arr_uni big = true. Proof. reflexivity. Qed.

(** C01: the number that ends in [mid] is accepted, and computed by the model with
    the depth of the recursion the theorem gives (and any larger one). *)
Example ex_C01 :
  let depth := 5 * List.length (m_stack (a_m mid)) + 6 * height (m_root (a_m mid)) + 7 in
  depth = 51 /\
  (exists m, exec (lift yes) 0 depth (CDisp (TSc (SInt 1))) (a_m mid) = ROk m /\ m_stack m = [[Mem 2; Elem]; [Mem 2]; []]) /\
  forall more, exec (lift yes) 0 (depth + more) (CDisp (TSc (SInt 1))) (a_m mid) = exec (lift yes) 0 depth (CDisp (TSc (SInt 1))) (a_m mid).
Proof.
  split; [vm_compute; reflexivity|]. split; [eexists; split; vm_compute; reflexivity|].
  intros more. destruct (@C01_token_terminates (lift yes) 0 (TSc (SInt 1)) (a_m mid)) as (r & _ & H).
  etransitivity; [apply H|symmetry; apply H]; lia.
Qed.

(** C16: after the document of [big1] the list is popped: the list alone is unset. *)
Example ex_C16 :
  (exists q, get [Mem 1] (m_root (a_m big1)) = Some q /\ get_value q = Some (VVec [VSc (SInt 1); VSc (SInt (-20))]) /\ stored q <> None) /\
  (exists r', get [Mem 1] (m_root (a_m big2)) = Some r' /\ is_set r' = false /\ get_value r' = None /\ pop_value r' = None) /\
  (exists r', get [Mem 0] (m_root (a_m big2)) = Some r' /\ get_value r' = Some (VSc (SInt 1))).
Proof.
  assert (H : exists q, get [Mem 1] (m_root (a_m big1)) = Some q /\ get_value q = Some (VVec [VSc (SInt 1); VSc (SInt (-20))]) /\ stored q <> None)
    by (eexists; split; [vm_compute; reflexivity|split; [vm_compute; reflexivity|discriminate]]).
  split; [exact H|]. destruct H as (q & Hq & Hv & _).
  split.
  - destruct (@C16_pop_one json_tk big1 [Mem 1] q _ Hq Hv [Mem 1] q Hq) as (r' & H1 & _ & H2 & _).
    exists r'. split; [exact H1|]. apply H2. reflexivity.
  - assert (exists r, get [Mem 0] (m_root (a_m big1)) = Some r /\ get_value r = Some (VSc (SInt 1))) as (r & Hr & Hg)
      by (eexists; split; vm_compute; reflexivity).
    destruct (@C16_pop_one json_tk big1 [Mem 1] q _ Hq Hv [Mem 0] r Hr) as (r' & H1 & _ & _ & H2).
    exists r'. split; [exact H1|]. rewrite <- Hg. apply H2. discriminate.
Qed.

(** C23: in the middle of a document, parse() of invalid text throws, and so does finish();
    a callback throws something that is not a std::exception. *)
Definition mid_text : mem := texts ["{'id':1,'map':{'p':{'x':1"; "]"].
Definition mid_ops : list op := [OpParse mid_text 0].
Definition mid2 : api json_tk := state_after (do_ops (lift yes) 0 ye mid_ops (fresh_parser big)) (fresh_parser big).
Lemma mid_eq : do_ops (lift yes) 0 ye mid_ops (fresh_parser big) = AOk mid2.
Proof. apply ok_state. vm_compute. reflexivity. Qed.
Definition throws : prog := mkP (fun c _ _ => mkA [] None (if Nat.eqb c 1 then CThrowOther else CTrue)) (fun _ => "?") (fun _ => None).
Example ex_C23 :
  (exists x, parse (lift yes) 0 ye mid_text 1 mid2 = AThrow x (state_after (parse (lift yes) 0 ye mid_text 1 mid2) mid2)) /\
  match Api.finish (lift yes) 0 ye mid_text mid2 with AOk _ | AThrow _ _ => True | _ => False end /\
  (exists x, is_throw (parse (lift throws) 0 ye mid_text 0 (fresh_parser big)) = Some x /\ pe_sj x = "Unknown exception").
Proof.
  split; [eexists; apply throw_state; vm_compute; reflexivity|]. split.
  - refine (@C23_finish_only_parsing_error json_tk (lift yes) 0 ye big [] mid_ops mid2 mid_text eq_refl mid_eq _).
    intros M0 b bytes H1 H2. injection H1 as <- <-. exists bytes. split; [exact H2|lia].
  - eexists. split; vm_compute; reflexivity.
Qed.

(** C26: the end of the text in the middle of a number and of a document. *)
Definition live_state (a : api json_tk) : option (tk_st json_tk) := match a_h a with HLive _ st => Some st | _ => None end.
Definition fin_tokens (a : api json_tk) : option (list token * bool) :=
  match live_state a with
  | Some st => Some (fst (tk_fin json_tk st), match snd (tk_fin json_tk st) with None => true | _ => false end)
  | None => None
  end.
Example ex_C26 : exists x, is_throw (Api.finish (lift yes) 0 ye mid_text mid2) = Some x /\ pe_sj x = "" /\ pe_what x = c_str (pe_yajl x).
Proof.
  assert (exists x, is_throw (Api.finish (lift yes) 0 ye mid_text mid2) = Some x) as [x Hx] by (eexists; vm_compute; reflexivity).
  exists x. split; [exact Hx|].
  assert (Hs : pe_sj x = "").
  { pose proof (throw_state _ mid2 Hx) as H.
    assert (Hf : exists ts, fin_tokens mid2 = Some (ts, true) /\ ts = [TSc (SInt 1)]) by (eexists; split; [vm_compute; reflexivity|reflexivity]).
    destruct Hf as (ts0 & Hf & Hts). unfold fin_tokens, live_state in Hf.
    destruct (a_h mid2) as [st|] eqn:Hst; [|discriminate].
    destruct (@C26_finish_error json_tk _ _ _ _ _ _ _ _ _ _ _ mid_eq Hst H) as (ts & y & Ht & [(m' & _ & _ & _ & K)|[(m' & _ & K & _)|(e & m' & K & _)]]).
    - exact K.
    - rewrite Ht in Hf. simpl in Hf. destruct y; congruence.
    - rewrite Ht in Hf. simpl in Hf. injection Hf as Hf _. rewrite Hf, Hts in K. vm_compute in K. discriminate. }
  split; [exact Hs|]. apply C26_what. exact Hs.
Qed.

(** The underlying parser's part is about the text of the failing parse() call, and for
    finish() about the last one: here with an underlying parser that just quotes it. *)
Definition quote : list ascii -> string := string_of_list_ascii.
Definition mid_quoted : api json_tk := state_after (do_ops (lift yes) 0 quote mid_ops (fresh_parser big)) (fresh_parser big).
Lemma mid_quoted_eq : do_ops (lift yes) 0 quote mid_ops (fresh_parser big) = AOk mid_quoted.
Proof. apply ok_state. vm_compute. reflexivity. Qed.
Example ex_C26_text :
  (exists x a', parse (lift yes) 0 quote mid_text 1 mid_quoted = AThrow x a' /\ pe_yajl x = "]") /\
  (exists x a', Api.finish (lift yes) 0 quote mid_text mid_quoted = AThrow x a' /\ pe_yajl x = js "{'id':1,'map':{'p':{'x':1").
Proof.
  split.
  - assert (exists x, is_throw (parse (lift yes) 0 quote mid_text 1 mid_quoted) = Some x) as [x Hx] by (eexists; vm_compute; reflexivity).
    exists x, (state_after (parse (lift yes) 0 quote mid_text 1 mid_quoted) mid_quoted).
    assert (H : parse (lift yes) 0 quote mid_text 1 mid_quoted = AThrow x (state_after (parse (lift yes) 0 quote mid_text 1 mid_quoted) mid_quoted))
      by (apply throw_state; exact Hx).
    split; [exact H|]. rewrite (@C26_parse_text json_tk (lift yes) 0 quote mid_text 1 (str "]") mid_quoted x _ eq_refl H). reflexivity.
  - assert (exists x, is_throw (Api.finish (lift yes) 0 quote mid_text mid_quoted) = Some x) as [x Hx] by (eexists; vm_compute; reflexivity).
    exists x, (state_after (Api.finish (lift yes) 0 quote mid_text mid_quoted) mid_quoted).
    assert (H : Api.finish (lift yes) 0 quote mid_text mid_quoted = AThrow x (state_after (Api.finish (lift yes) 0 quote mid_text mid_quoted) mid_quoted))
      by (apply throw_state; exact Hx).
    split; [exact H|].
    destruct (@C26_finish_text _ _ _ _ _ _ _ _ _ _ _ mid_quoted_eq H) as [[K _]|[[K _]|(M0 & b & bytes & K & Kb & K1 & _)]].
    + clear H. vm_compute in Hx. injection Hx as <-. discriminate K.
    + discriminate K.
    + injection K as <- <-. rewrite (K1 bytes Kb), firstn_all. injection Kb as <-. vm_compute. reflexivity.
Qed.

(** C29: the callback of the list refuses; the map and the rest are not looked at. *)
Example ex_C29 : exists x a', parse (lift no2) 0 ye (texts ["{'id':1,'list':[7],'map':{'p':{'x':1}},'id':2}"]) 0 (fresh_parser big) = AThrow x a' /\
  m_log (a_m a') = [Ev 1 (OVal (VSc (SInt 1))); Ev 2 (OVal (VVec [VSc (SInt 7)]))] /\ pe_sj x = msg_cb_false.
Proof.
  do 2 eexists. split; [apply throw_state with (a := fresh_parser big); vm_compute; reflexivity|].
  split; vm_compute; reflexivity.
Qed.

(** C37: an unknown member nested 300 deep, after the text above was abandoned by finish();
    the declaration has four levels, the stack grew to two. *)
Fixpoint brackets (n : nat) : list token :=
  match n with O => [] | S n => TArrStart :: brackets n end.
Example ex_C37 :
  levels big = 4 /\ no_arr_uni big = true /\
  do_ops (lift yes) 0 ye [OpParse (texts ["{'id':1,'map':{'p':{'x':1"]) 0; OpFinish (texts ["{'id':1,'map':{'p':{'x':1"])] (fresh_parser big)
    = AOk (state_after (do_ops (lift yes) 0 ye [OpParse (texts ["{'id':1,'map':{'p':{'x':1"]) 0; OpFinish (texts ["{'id':1,'map':{'p':{'x':1"])] (fresh_parser big)) (fresh_parser big)) /\
  match run (lift yes) 0 ([TMapStart; TKey "extra"] ++ brackets 300)%list
          (dispatcher_reset (a_m (state_after (do_ops (lift yes) 0 ye [OpParse (texts ["{'id':1,'map':{'p':{'x':1"]) 0; OpFinish (texts ["{'id':1,'map':{'p':{'x':1"])] (fresh_parser big)) (fresh_parser big)))) with
  | ROk m => List.length (m_stack m) = 2 | _ => False end.
Proof.
  split; [reflexivity|split; [reflexivity|split; [apply ok_state; vm_compute; reflexivity|]]].
  vm_compute. reflexivity.
Qed.

(** ** C38: an SUnion (callback 5) in an SMap (callbacks 6, 7), with a default value; a
    document is parsed, the next one fails inside the union's member, and the parser is
    attached to another Parser that parses a third one. *)
Definition uni38 : schema :=
  SUni true TyInt "t"
    [(mkM (SInt 1) false None, SObj OAuto [must "p" int] false None);
     (mkM (SInt 2) false None, SObj OAuto [dflt "q" (VSc (SStr "-")) text; must "r" (SVal TyBool None)] false None)] (Some 5).
Definition map38 : schema := SMp true uni38 (Some 6) (Some 7).
Definition o38 : list op :=
  [OpParse (texts ["{'b':{'t':2,'r':true},'a':{'t':1,'p':4}}"]) 0; OpFinish (texts ["{'b':{'t':2,'r':true},'a':{'t':1,'p':4}}"]);
   OpParse (texts ["{'z':{'t':2,'r':3}}"]) 0; OpParse (texts ["{'c':{'t':2,'q':'w','r':false}}"]) 0].
Definition call38 (g n : nat) (a : api json_tk) : api json_tk :=
  state_after (do_op (lift yes) g ye (nth n o38 (OpFinish (texts []))) a) a.
Definition a38 : api json_tk := call38 0 1 (call38 0 0 (fresh_parser map38)).
Definition b38 : api json_tk := call38 0 2 a38.
Definition c38 : api json_tk := call38 4 3 (start json_tk 4 (m_root (a_m b38)) (past b38)).

Lemma call38_used g n a : used ye map38 [] g a ->
  (is_ok (do_op (lift yes) g ye (nth n o38 (OpFinish (texts []))) a) || 
   match is_throw (do_op (lift yes) g ye (nth n o38 (OpFinish (texts []))) a) with Some _ => true | None => false end = true)%bool ->
  used ye map38 [] g (call38 g n a).
Proof.
  intros Hu H. refine (@u_call _ _ _ _ g a (lift yes) (nth n o38 (OpFinish (texts []))) _ Hu _).
  unfold call38. destruct (do_op _ _ _ _ _); simpl in *; try discriminate; eauto.
Qed.

Lemma map38_compiles : compiles map38.
Proof.
  unfold map38, uni38.
  repeat match goal with
  | |- compiles _ => constructor
  | |- Forall _ _ => constructor; cbn [fst snd must dflt m_def]
  | |- forall _, None = Some _ -> _ => discriminate
  | |- forall _, Some _ = Some _ -> _ => let d := fresh in let H := fresh in intros d H; injection H as <-; constructor; reflexivity
  | |- true = true -> _ => discriminate
  end.
Qed.

Lemma c38_used : used ye map38 [] 4 c38.
Proof.
  apply call38_used; [|vm_compute; reflexivity]. apply u_again with (g := 0).
  apply call38_used; [|vm_compute; reflexivity].
  apply call38_used; [|vm_compute; reflexivity].
  apply call38_used; [|vm_compute; reflexivity]. apply u_new.
Qed.

Example ex_C38 :
  v_val (view_of (m_root (a_m a38))) =
    Some (VMap [("a", VVar 0 (VTup [VSc (SInt 4)])); ("b", VVar 1 (VTup [VSc (SStr "-"); VSc (SBool true)]))]) /\
  v_set (view_of (m_root (a_m b38))) = false /\
  shape map38 (view_of (m_root (a_m c38))) /\
  v_val (view_of (m_root (a_m c38))) = Some (VMap [("c", VVar 1 (VTup [VSc (SStr "w"); VSc (SBool false)]))]) /\
  Forall (told map38) (past c38) /\ List.length (past c38) = 8.
Proof.
  split; [vm_compute; reflexivity|]. split; [vm_compute; reflexivity|].
  split; [exact (@C38_shape _ _ _ _ _ _ map38_compiles c38_used)|]. split; [vm_compute; reflexivity|].
  split; [|vm_compute; reflexivity].
  destruct (@C38_callbacks _ _ _ _ _ _ map38_compiles c38_used) as (l & H1 & H2).
  simpl in H1. subst l. exact H2.
Qed.

(** ** C04, C36: a value of a nested storing declaration *)
Definition stored_s : schema :=
  SObj OAuto
    [must "id" int;
     must "rows" (SArr true (SMp true text None None) None);
     must "u" (SUni true TyInt "t"
        [(mkM (SInt 1) false None, SObj OAuto [must "p" int] false None);
         (mkM (SInt 2) false None, SObj OAuto [must "q" text; must "r" (SVal TyBool None)] false None)] None)]
    false None.
Definition stored_v : value :=
  VTup [VSc (SInt (-7));
        VVec [VMap [("a", VSc (SStr "1")); ("b", VSc (SStr "2"))]; VMap []];
        VVar 1 (VTup [VSc (SStr (js "x'\y")); VSc (SBool true)])].

(** The name lists of the examples are distinct. *)
Ltac nodup := repeat constructor; simpl; intuition discriminate.
Ltac is_named l := exists l; split; [reflexivity|nodup].

Lemma stored_storable : storable stored_s.
Proof.
  repeat match goal with
  | |- storable _ => constructor
  | |- Forall _ _ => constructor; simpl
  | |- _ /\ _ => split
  | |- _ <> _ => discriminate
  | |- _ = _ => reflexivity
  end.
  - is_named ["id"; "rows"; "u"].
  - repeat split; repeat constructor.
  - is_named ["p"].
  - is_named ["q"; "r"].
Qed.

Lemma stored_has : has stored_s stored_v.
Proof.
  unfold stored_s, stored_v, must, int, text. cbn [has snd nth_error].
  repeat match goal with
  | |- _ /\ _ => split
  | |- True => exact I
  | |- StronglySorted _ _ => repeat constructor
  | |- _ => reflexivity
  end.
Qed.

Example ex_C04_C36 : exists w,
  doc 0 ye yes (fun n => if Nat.eqb n 0 then Some (print (to_json stored_s stored_v)) else None) 0 [] (fresh_parser stored_s) =
    Parsed [] w /\ v_set w = true /\ v_val w = Some stored_v.
Proof.
  exact (@C36_value_round_trip 0 ye yes stored_s (fresh_parser stored_s)
    (fun n => if Nat.eqb n 0 then Some (print (to_json stored_s stored_v)) else None) 0 [] stored_v
    (h_new _ _ _ _ _) (at_start_new _ _ _ _) yes_stored stored_storable (fun _ H => match H with end) stored_has eq_refl eq_refl).
Qed.

(** ... with callbacks that only look. *)
Definition watched_s := SObj OAuto [must "a" (SVal TyInt (Some 1)); must "b" (SArr true (SVal TyStr (Some 2)) (Some 3))] true (Some 4).
Definition watched_v : value := VTup [VSc (SInt 5); VVec [VSc (SStr "x"); VSc (SStr "y")]].

Example ex_C04_watched : exists w,
  outcome_of yes watched_s ["{'a':5,'b':['x','y']}"] [] =
    Parsed [Ev 1 (OVal (VSc (SInt 5))); Ev 2 (OVal (VSc (SStr "x"))); Ev 2 (OVal (VSc (SStr "y")));
            Ev 3 (OVal (VVec [VSc (SStr "x"); VSc (SStr "y")])); Ev 4 (OVal watched_v)] w /\
    v_set w = true /\ v_val w = Some watched_v.
Proof.
  apply (@C04_round_trip_watched json_tk 0 ye yes watched_s (fresh_parser watched_s) (texts ["{'a':5,'b':['x','y']}"]) 0 [] watched_v).
  - exact yes_stored.
  - constructor; [discriminate|is_named ["a"; "b"]|repeat constructor].
  - intros c _ l o. reflexivity.
  - repeat split.
  - reads_new.
Qed.

(** Doubles: the text of a double gives it back, for normal, subnormal and integral ones. *)
Definition f_tenth : spec_float := S754_finite false 7205759403792794 (-56).     (* 0.1 *)
Definition f_tiny : spec_float := S754_finite true 1 (-1074).
Definition f_three : spec_float := S754_finite false 6755399441055744 (-51).     (* 3 *)
Definition f_huge : spec_float := S754_finite false 9007199254740991 971.

Definition doubles := SArr true (SVal TyDouble None) None.
Definition doubles_v : value := VVec (map (fun f => VSc (SDouble f)) [f_tenth; f_tiny; f_three; f_huge; S754_zero true]).

Lemma content_one l : content (fun n => if Nat.eqb n 0 then Some l else None) [0] = Some l.
Proof. simpl. rewrite app_nil_r. reflexivity. Qed.

Example ex_C36_doubles : exists w,
  doc 0 ye yes (fun n => if Nat.eqb n 0 then Some (print (to_json doubles doubles_v)) else None) 0 [] (fresh_parser doubles) =
    Parsed [] w /\ v_set w = true /\ v_val w = Some doubles_v.
Proof.
  refine (@C36_value_round_trip 0 ye yes doubles (fresh_parser doubles)
    (fun n => if Nat.eqb n 0 then Some (print (to_json doubles doubles_v)) else None) 0 [] doubles_v
    (h_new _ _ _ _ _) (at_start_new _ _ _ _) yes_stored _ (fun _ H => match H with end) _ eq_refl (content_one _)); repeat constructor.
Qed.

Example ex_C36_three :
  string_of_list_ascii (print (JSc (SDouble f_three))) = "3000000000000000000000000000000000000000000000000000e-51" /\
  doc 0 ye yes (fun n => Some (print (JSc (SDouble f_three)))) 0 [] (fresh_parser int) =
    Failed [] "Unexpected token double".
Proof.
  split; [vm_compute; reflexivity|]. exact (@C36_scalar_text 0 ye yes TyInt (fresh_parser int) (fun _ => Some (print (JSc (SDouble f_three)))) 0 []
    (SDouble f_three) (h_new _ _ _ _ _) (at_start_new _ _ _ _) eq_refl eq_refl).
Qed.

(** Shorter texts are rounded to the nearest double; a text whose double is infinite, or
    with a broken number or string, is rejected. *)
Definition value_of (s : schema) (t : string) : option (option value) :=
  match outcome_of yes s [t] [] with Parsed _ w => Some (v_val w) | _ => None end.

Example ex_C36_numbers :
  value_of doubles "[0.1,1e-1,100E-3,-5e-324, 3.0 ,300e-2,-0.0,17976931348623157e+292]" =
    Some (Some (VVec (map (fun f => VSc (SDouble f))
      [f_tenth; f_tenth; f_tenth; f_tiny; f_three; f_three; S754_zero true; f_huge]))) /\
  map (value_of doubles) ["[1e400]"; "[1.]"; "[.5]"; "[1e]"; "[-]"; "[01.5]"; "[3]"] = repeat None 7.
Proof. vm_compute. split; reflexivity. Qed.

Definition byte_str (l : list nat) : string := string_of_list_ascii (map ascii_of_nat l).
Example ex_C36_strings :
  value_of text (js "'a\u00e9\uD83D\ude00\n'") = Some (Some (VSc (SStr (byte_str [97; 195; 169; 240; 159; 152; 128; 10])))) /\
  value_of text (byte_str [34; 195; 169; 34]) = Some (Some (VSc (SStr (byte_str [195; 169])))) /\
  value_of text (byte_str [34; 195; 34]) = None /\ value_of text (js "'\ud83d'") = None.
Proof. vm_compute. repeat split; reflexivity. Qed.

(** Fractions, exponents, escapes and white space by the grammar. *)
Definition f_mixed := Strtod.strtod true 12345 (-104).
Example ex_C36_grammar_number :
  outcome_of yes (SArr true (SVal TyDouble None) None) [" [-1.23"; "45E-10"; "0 ]"] [1; 2] =
    Parsed [] (View true false (Some (VVec [VSc (SDouble f_mixed)])) 0 []).
Proof.
  rewrite (@C36_grammar_text 0 ye yes (SArr true (SVal TyDouble None) None) (fresh_parser _) (texts [" [-1.23"; "45E-10"; "0 ]"]) 0 [1; 2] (str " [-1.2345E-100 ]") (JArr [JSc (SDouble f_mixed)])).
  - vm_compute. reflexivity.
  - apply h_new.
  - apply at_start_new.
  - vm_compute. reflexivity.
  - change (str " [-1.2345E-100 ]") with ([ch 32] ++ (ch 91 :: ([] ++ decnum_text (Dec true [1%N] (Some [2; 3; 4; 5]%N) (Some (ch 69, Some true, [1; 0; 0]%N))) ++ [ch 32]) ++ [ch 93]) ++ [])%list.
    constructor; [repeat constructor; simpl; auto| |constructor].
    constructor. constructor; [constructor| |repeat constructor; simpl; auto].
    constructor; [|vm_compute; reflexivity].
    unfold well_formed, digit_list. cbn [d_int d_frac d_exp]. repeat split; try discriminate; try (repeat constructor; fail); auto.
    right. simpl. discriminate.
  - reflexivity.
Qed.

Example ex_C36_grammar_string :
  outcome_of yes (SVal TyStr None) ["'\ud8"; "3D\uDe00\n' "] [1] =
    Parsed [] (View true false (Some (VSc (SStr (byte_str [240; 159; 152; 128; 10])))) 0 []).
Proof.
  rewrite (@C36_grammar_text 0 ye yes (SVal TyStr None) (fresh_parser _) (texts ["'\ud8"; "3D\uDe00\n' "]) 0 [1] (str (js "'\ud83D\uDe00\n' ")) (JSc (SStr (byte_str [240; 159; 152; 128; 10])))).
  - vm_compute. reflexivity.
  - apply h_new.
  - apply at_start_new.
  - vm_compute. reflexivity.
  - change (str (js "'\ud83D\uDe00\n' ")) with ([] ++ (ch 34 :: (((ch 92 :: ch 117 :: str "d83D") ++ ch 92 :: ch 117 :: str "De00") ++ [ch 92; ch 110] ++ []) ++ [ch 34]) ++ [ch 32])%list.
    constructor; [constructor| |repeat constructor; simpl; auto].
    constructor. change (byte_str [240; 159; 152; 128; 10]) with (string_of_list_ascii ([ch (240 + 0); ch (128 + 31); ch (128 + 24); ch (128 + 0)] ++ [ch 10] ++ [])).
    constructor. constructor; [|constructor; [constructor; simpl; auto 10|constructor]].
    eapply P_pair with (h := (4096 * 13 + 256 * 8 + 16 * 3 + 13)%N) (l := (4096 * 13 + 256 * 14 + 16 * 0 + 0)%N).
    + constructor; [right|left|left|right]; (split; [split; reflexivity || discriminate || reflexivity|auto]) || (split; reflexivity).
    + constructor; [right|right|left|left]; (split; [split; reflexivity || discriminate || reflexivity|auto]) || (split; reflexivity).
    + split; [discriminate|reflexivity].
    + split; [discriminate|reflexivity].
    + apply (@U4 0 31 24 0); try reflexivity; discriminate.
  - reflexivity.
Qed.

(** Text that is not JSON is reported even by a declaration that ignores everything. *)
Example ex_C36_not_json :
  Forall (fun t => (forall j, ~ json_text (str t) j) /\
    forall a', document (lift yes) 0 ye (fun _ => Some (str t)) [0] (fresh_parser SIgn) <> AOk a')
    ["[1,]"; "[1 2]"; "01"; "nul"; "{1:2}"; "[1"; "1 2"; ""; "1."; "+1"; "[}"].
Proof.
  apply Forall_forall. intros t Ht.
  assert (H : forall j, ~ json_text (str t) j).
  { intros j H. apply tokenize_json in H as [x H].
    assert (K : snd (tokenize json_tk (str t)) = None) by
      (simpl in Ht; repeat (destruct Ht as [<-|Ht]; [vm_compute; reflexivity|]); destruct Ht).
    rewrite H in K. discriminate K. }
  split; [exact H|]. apply (@C36_not_json_reported (lift yes) 0 ye (fresh_parser SIgn) (fun _ => Some (str t)) 0 [] (str t));
    [apply at_start_new| |exact H]. simpl. rewrite app_nil_r. reflexivity.
Qed.

Example ex_C04_text :
  string_of_list_ascii (print (to_json stored_s stored_v)) =
  js "{'id':-7,'rows':[{'a':'1','b':'2'},{}],'u':{'t':2,'q':'x\'\\y','r':true}}".
Proof. vm_compute. reflexivity. Qed.

(** ** C05 *)
Example ex_C05 : outcome_of yes int [" -1"; "2 "] [1] = Parsed [] (View true false (Some (VSc (SInt (-12)))) 0 []) /\
                 outcome_of yes int ["'1'"] [] = Failed [] "Unexpected token string".
Proof.
  split.
  - apply (@C05_value_document json_tk 0 ye yes TyInt (fresh_parser int) (texts [" -1"; "2 "]) 0 [1] (JSc (SInt (-12)))).
    reads_new.
  - apply (@C05_value_document json_tk 0 ye yes TyInt (fresh_parser int) (texts ["'1'"]) 0 [] (JSc (SStr "1"))).
    reads_new.
Qed.

(** ** C06, C07: an array of arrays; an array of values with nulls *)
(** Programs whose callbacks look at their argument only. *)
Ltac heed := intros ? _ ? ? ?; reflexivity.
Ltac heeds := let Hin := fresh in
  intros ? Hin; split; [heed|simpl in Hin; repeat (destruct Hin as [<-|Hin]; [reflexivity|]); destruct Hin].

Example ex_C06 : outcome_of yes (SArr true (SArr true int None) None) ["[[1,2],[],[3]]"] [] =
  Parsed [] (View true false (Some (VVec [VVec [VSc (SInt 1); VSc (SInt 2)]; VVec []; VVec [VSc (SInt 3)]])) 0 []).
Proof.
  apply (proj1 (@C06_array_elements json_tk 0 ye yes (SArr true int None) None (fresh_parser (SArr true (SArr true int None) None))
    (texts ["[[1,2],[],[3]]"]) 0 []
    [JArr [JSc (SInt 1); JSc (SInt 2)]; JArr []; JArr [JSc (SInt 3)]]
    ltac:(reads_new) eq_refl ltac:(heed))).
  repeat constructor; try (eexists; split; reflexivity).
Qed.

(** With callbacks 1 (numbers), 2 (inner arrays) and 3, which rejects the array if it has
    more than one element. *)
Definition few : prog := mkP (fun c _ o => match c, o with
  | 3, OVal (VVec (_ :: _ :: _)) => mkA [] None CFalse
  | _, _ => mkA [] None CTrue
  end) (fun _ => "") (fun _ => None).
Definition arr_cbs := SArr true (SArr true (SVal TyInt (Some 1)) (Some 2)) (Some 3).
Example ex_C06_callbacks :
  outcome_of few arr_cbs ["[[1,2]]"] [] =
  Parsed [Ev 1 (OVal (VSc (SInt 1))); Ev 1 (OVal (VSc (SInt 2))); Ev 2 (OVal (VVec [VSc (SInt 1); VSc (SInt 2)]));
          Ev 3 (OVal (VVec [VVec [VSc (SInt 1); VSc (SInt 2)]]))]
         (View true false (Some (VVec [VVec [VSc (SInt 1); VSc (SInt 2)]])) 0 []) /\
  outcome_of few arr_cbs ["[[],[7]]"] [] =
  Failed [Ev 2 (OVal (VVec [])); Ev 1 (OVal (VSc (SInt 7))); Ev 2 (OVal (VVec [VSc (SInt 7)]));
          Ev 3 (OVal (VVec [VVec []; VVec [VSc (SInt 7)]]))] "Callback returned false".
Proof.
  assert (H : heedless few (SArr true (SVal TyInt (Some 1)) (Some 2))) by heed.
  split.
  - refine (proj1 (@C06_array_elements json_tk 0 ye few _ (Some 3) (fresh_parser arr_cbs) (texts ["[[1,2]]"]) 0 []
      [JArr [JSc (SInt 1); JSc (SInt 2)]] ltac:(reads_new) eq_refl H) [VVec [VSc (SInt 1); VSc (SInt 2)]] _).
    repeat constructor; try (eexists; split; reflexivity).
  - refine (proj1 (@C06_array_elements json_tk 0 ye few _ (Some 3) (fresh_parser arr_cbs) (texts ["[[],[7]]"]) 0 []
      [JArr []; JArr [JSc (SInt 7)]] ltac:(reads_new) eq_refl H) [VVec []; VVec [VSc (SInt 7)]] _).
    repeat constructor; try (eexists; split; reflexivity).
Qed.

Example ex_C06_not_storing : exists l w,
  outcome_of few (SArr false (SVal TyInt (Some 1)) (Some 3)) ["[4,null,5]"] [] = Parsed l w /\
  map ev_id l = [1; 1; 3].
Proof.
  do 2 eexists. split.
  - refine (proj1 (@C06_array_not_storing json_tk 0 ye few (SVal TyInt (Some 1)) (Some 3)
      (fresh_parser (SArr false (SVal TyInt (Some 1)) (Some 3))) (texts ["[4,null,5]"]) 0 []
      [JSc (SInt 4); JNull; JSc (SInt 5)] ltac:(reads_new) eq_refl ltac:(heed)) _).
    repeat constructor; eexists; reflexivity.
  - reflexivity.
Qed.

Example ex_C07 : outcome_of yes (SArr true (SVal TyInt (Some 1)) None) ["[null,1,null,2]"] [] =
                 outcome_of yes (SArr true (SVal TyInt (Some 1)) None) ["[1,2]"] [].
Proof.
  apply (@C07_null_skipped_value json_tk 0 ye yes true TyInt (Some 1) None
    (fresh_parser (SArr true (SVal TyInt (Some 1)) None))
    (texts ["[null,1,null,2]"]) 0 [] (texts ["[1,2]"]) 0 []
    [JNull; JSc (SInt 1); JNull; JSc (SInt 2)]); reads_new.
Qed.

(** ** C08, C09: a map with a repeated key *)
Definition smap := SMp true int None None.
Example ex_C08 : exists m, keys_sorted m /\
  (first_of "a" m = Some (VSc (SInt 1)) /\ first_of "b" m = Some (VSc (SInt 2)) /\ first_of "c" m = None) /\
  outcome_of yes smap ["{'b':2,'a':1,'b':3}"] [] = Parsed [] (View true false (Some (VMap m)) 0 []).
Proof.
  destruct (proj1 (@C08_map_values json_tk 0 ye yes int None (fresh_parser smap) (texts ["{'b':2,'a':1,'b':3}"]) 0 []
    [("b", JSc (SInt 2)); ("a", JSc (SInt 1)); ("b", JSc (SInt 3))] ltac:(reads_new) eq_refl ltac:(heed) eq_refl)
    [VSc (SInt 2); VSc (SInt 1); VSc (SInt 3)]) as (m & H1 & H2 & H3).
  - repeat constructor; try (eexists; split; reflexivity).
  - exists m. split; [exact H1|split; [split; [|split]; rewrite H2; reflexivity|exact H3]].
Qed.

Example ex_C08_null : exists l m, outcome_of yes smap ["{'b':2,'a':null}"] [] = Failed l m.
Proof.
  apply (@C08_map_null_fails json_tk 0 ye yes int None (fresh_parser smap) (texts ["{'b':2,'a':null}"]) 0 []
    [("b", JSc (SInt 2)); ("a", JNull)] ltac:(reads_new) eq_refl ltac:(heed) eq_refl). simpl. auto.
Qed.

Definition cmap := SMp false pair_s (Some 1) (Some 2).
Example ex_C09 : exists l w last, outcome_of yes cmap ["{'b':{'x':1},'a':{'x':2},'b':{'x':3}}"] [] = Parsed l w /\
  l = [Ev 1 (OElem "b" (view_by yes pair_s (JObj [("x", JSc (SInt 1))])));
       Ev 1 (OElem "a" (view_by yes pair_s (JObj [("x", JSc (SInt 2))])));
       Ev 1 (OElem "b" (view_by yes pair_s (JObj [("x", JSc (SInt 3))]))); last] /\ ev_id last = 2.
Proof.
  assert (R : reads 0 ye cmap (fresh_parser cmap) (texts ["{'b':{'x':1},'a':{'x':2},'b':{'x':3}}"]) 0 []
    (JObj [("b", JObj [("x", JSc (SInt 1))]); ("a", JObj [("x", JSc (SInt 2))]); ("b", JObj [("x", JSc (SInt 3))])]))
    by reads_new.
  assert (O : exists l w, outcome_of yes cmap ["{'b':{'x':1},'a':{'x':2},'b':{'x':3}}"] [] = Parsed l w)
    by (do 2 eexists; vm_compute; reflexivity).
  destruct O as (l & w & O). exists l, w.
  destruct (@C09_map_callbacks _ _ _ yes _ _ _ _ _ _ _ _ _ _ _ R eq_refl ltac:(heed) eq_refl O) as (last & H1 & H2).
  destruct last as [|e [|? ?]]; try discriminate H2. exists e. split; [exact O|split; [exact H1|]].
  simpl in H2. congruence.
Qed.

(** The value's own callback (5) runs before the element callback. *)
Definition cmap5 := SMp false (SVal TyInt (Some 5)) (Some 1) (Some 2).
Example ex_C09_values : exists l w last, outcome_of yes cmap5 ["{'b':7,'a':8}"] [] = Parsed l w /\
  l = [Ev 5 (OVal (VSc (SInt 7))); Ev 1 (OElem "b" (View true false (Some (VSc (SInt 7))) 0 []));
       Ev 5 (OVal (VSc (SInt 8))); Ev 1 (OElem "a" (View true false (Some (VSc (SInt 8))) 0 [])); last] /\
  ev_id last = 2.
Proof.
  assert (R : reads 0 ye cmap5 (fresh_parser cmap5) (texts ["{'b':7,'a':8}"]) 0 []
    (JObj [("b", JSc (SInt 7)); ("a", JSc (SInt 8))])) by reads_new.
  assert (O : exists l w, outcome_of yes cmap5 ["{'b':7,'a':8}"] [] = Parsed l w)
    by (do 2 eexists; vm_compute; reflexivity).
  destruct O as (l & w & O). exists l, w.
  destruct (@C09_map_callbacks _ _ _ yes _ _ _ _ _ _ _ _ _ _ _ R eq_refl ltac:(heed) eq_refl O) as (last & H1 & H2).
  destruct last as [|e [|? ?]]; try discriminate H2. exists e. split; [exact O|split; [exact H1|]].
  simpl in H2. congruence.
Qed.

(** ** C10-C15: an object with a mandatory, an optional and a defaulted member *)
Definition obj3_ms := [must "a" int; may "b" text; dflt "c" (VSc (SInt 9)) int].
Definition obj3 := SObj OPlain obj3_ms false None.
Definition obj3_ign := SObj OPlain obj3_ms true None.
Definition auto3 := SObj OAuto [must "a" int; dflt "c" (VSc (SInt 9)) int; must "e" text] false None.
Lemma obj3_named : named obj3_ms.
Proof. is_named ["a"; "b"; "c"]. Qed.

Ltac pairs_ok := repeat constructor; try (eexists; reflexivity).

Example ex_C10_ok : outcome_of yes obj3 ["{'c':1,'a':2,'c':null}"] [] =
  Parsed [] (View true false None 0
    [View true false (Some (VSc (SInt 2))) 0 []; View false true None 0 []; View false true None 0 []]).
Proof.
  apply (@C10_mandatory_ok json_tk 0 ye yes obj3_ms false None (fresh_parser obj3) (texts ["{'c':1,'a':2,'c':null}"]) 0 []
    [("c", JSc (SInt 1)); ("a", JSc (SInt 2)); ("c", JNull)] ltac:(reads_new)
    eq_refl ltac:(heeds) obj3_named ltac:(discriminate)).
  - pairs_ok.
  - intros mp [<-|[<-|[<-|[]]]]; simpl; intros; congruence.
Qed.

(** The object's callback (4) pops the member "a"; the members have callbacks 1 and 2. *)
Definition obj24_ms := [must "a" (SVal TyInt (Some 1)); may "b" (SVal TyStr (Some 2))].
Definition obj24 := SObj OPlain obj24_ms false (Some 4).
Definition popper : prog := mkP (fun c _ _ => match c with
  | 4 => mkA [[0]] (Some (VSc (SInt 42))) CTrue
  | _ => mkA [] None CTrue end) (fun _ => "") (fun _ => None).
Lemma obj24_named : named obj24_ms.
Proof. is_named ["a"; "b"]. Qed.

Example ex_C10_callback : exists w,
  outcome_of popper obj24 ["{'b':'x','a':2}"] [] =
  Parsed [Ev 2 (OVal (VSc (SStr "x"))); Ev 1 (OVal (VSc (SInt 2))); Ev 4 (OSelf w)]
    (View true false None 0 [View false false None 0 []; View true false (Some (VSc (SStr "x"))) 0 []]) /\
  v_kids w = [View true false (Some (VSc (SInt 2))) 0 []; View true false (Some (VSc (SStr "x"))) 0 []].
Proof.
  eexists. split.
  - refine (@C10_mandatory_ok json_tk 0 ye popper obj24_ms false (Some 4) (fresh_parser obj24) (texts ["{'b':'x','a':2}"]) 0 []
      [("b", JSc (SStr "x")); ("a", JSc (SInt 2))] ltac:(reads_new) eq_refl ltac:(heeds) obj24_named ltac:(discriminate) _ _).
    + pairs_ok.
    + intros mp [<-|[<-|[]]]; simpl; intros; congruence.
  - reflexivity.
Qed.

(** The same declaration as an SCustomObject: the callback assigns the value 42. *)
Definition custom2 := SObj OCustom obj24_ms false (Some 4).
Example ex_C10_custom : exists w,
  outcome_of popper custom2 ["{'b':'x','a':2}"] [] =
  Parsed [Ev 2 (OVal (VSc (SStr "x"))); Ev 1 (OVal (VSc (SInt 2))); Ev 4 (OCust w (VCust None))]
    (View true false (Some (VCust (Some (VSc (SInt 42))))) 0
       [View false false None 0 []; View true false (Some (VSc (SStr "x"))) 0 []]).
Proof.
  eexists.
  refine (@C10_mandatory_ok_custom json_tk 0 ye popper obj24_ms false (Some 4) (fresh_parser custom2) (texts ["{'b':'x','a':2}"]) 0 []
      [("b", JSc (SStr "x")); ("a", JSc (SInt 2))] ltac:(reads_new) eq_refl ltac:(heeds) obj24_named ltac:(discriminate) _ _).
  - pairs_ok.
  - intros mp [<-|[<-|[]]]; simpl; intros; congruence.
Qed.

Example ex_C10_missing : outcome_of yes obj3 ["{'c':1,'a':2,'a':null}"] [] =
  Failed [] "Mandatory member a is not present".
Proof.
  refine (@C10_mandatory_missing json_tk 0 ye yes OPlain obj3_ms false None (fresh_parser obj3) (texts ["{'c':1,'a':2,'a':null}"]) 0 []
    [("c", JSc (SInt 1)); ("a", JSc (SInt 2)); ("a", JNull)] 0 _ _ "a" (or_introl eq_refl) ltac:(reads_new)
    eq_refl ltac:(heeds) obj3_named ltac:(discriminate) _ eq_refl eq_refl eq_refl eq_refl _).
  - pairs_ok.
  - intros [|[|[|i]]] mp Hi Hn; simpl in Hn; try (injection Hn as <-; simpl; intros; try lia; congruence).
    destruct i; discriminate.
Qed.

Lemma auto3_named : named [must "a" int; dflt "c" (VSc (SInt 9)) int; must "e" text].
Proof. is_named ["a"; "c"; "e"]. Qed.

Example ex_C10_auto :
  outcome_of yes auto3 ["{'e':'x','a':1}"] [] =
     Parsed [] (View true false (Some (VTup [VSc (SInt 1); VSc (SInt 9); VSc (SStr "x")])) 0
       [View false false None 0 []; View false true None 0 []; View false false None 0 []]) /\
  outcome_of yes auto3 ["{'e':'x'}"] [] = Failed [] "Can not set value: Mandatory member a is not present".
Proof.
  split.
  - apply (proj1 (@C10_auto_object json_tk 0 ye yes _ false None (fresh_parser auto3) (texts ["{'e':'x','a':1}"]) 0 []
      [("e", JSc (SStr "x")); ("a", JSc (SInt 1))] ltac:(reads_new) eq_refl ltac:(heeds) auto3_named ltac:(discriminate)
      ltac:(pairs_ok))); [reflexivity|].
    intros [|[|[|[|i]]]] mp v H1 H2; simpl in H1, H2; try discriminate;
      injection H1 as <-; injection H2 as <-; cbn; auto.
  - refine (proj1 (proj2 (@C10_auto_object json_tk 0 ye yes _ false None (fresh_parser auto3) (texts ["{'e':'x'}"]) 0 []
      [("e", JSc (SStr "x"))] ltac:(reads_new) eq_refl ltac:(heeds) auto3_named ltac:(discriminate)
      ltac:(pairs_ok))) 0 _ _ "a" eq_refl eq_refl eq_refl eq_refl _).
    intros [|[|[|[|i]]]] mp Hi H1; simpl in H1; try discriminate; try lia; injection H1 as <-; eexists; (split; [|reflexivity]); cbn; auto.
Qed.

Example ex_C11_rejected : outcome_of yes obj3 ["{'a':2,'z':[1],'b':'x'}"] [] = Failed [] "Unexpected member z".
Proof.
  destruct (@C11_unknown_rejected json_tk 0 ye yes OPlain obj3_ms None (fresh_parser obj3) (texts ["{'a':2,'z':[1],'b':'x'}"]) 0 []
    [("a", JSc (SInt 2))] "z" (JArr [JSc (SInt 1)]) [("b", JSc (SStr "x"))] ltac:(reads_new) eq_refl) as (l & m & H1 & H2).
  - repeat constructor.
  - reflexivity.
  - destruct H2 as [-> ->]; [heeds|pairs_ok|exact H1].
Qed.

Example ex_C11_ignored : outcome_of yes obj3_ign ["{'a':2,'z':{'q':[1,{}]},'b':'x'}"] [] =
                         outcome_of yes obj3_ign ["{'a':2,'b':'x'}"] [].
Proof.
  refine (@C11_unknown_ignored json_tk 0 ye yes OPlain obj3_ms None (fresh_parser obj3_ign)
    (texts ["{'a':2,'z':{'q':[1,{}]},'b':'x'}"]) 0 [] (texts ["{'a':2,'b':'x'}"]) 0 []
    [("a", JSc (SInt 2))] "z" (JObj [("q", JArr [JSc (SInt 1); JObj []])]) [("b", JSc (SStr "x"))]
    ltac:(reads_new) eq_refl ltac:(reads_new) _ eq_refl ltac:(discriminate)).
  repeat constructor.
Qed.

Example ex_C11_values :
  blank big_json big =
    JObj [("id", JSc (SInt 1)); ("list", JArr [JSc (SInt 1); JNull; JSc (SInt (-20))]);
        ("map", JObj [("p", JObj [("x", JSc (SInt 1)); ("y", JSc (SInt 2))]); ("q", JObj [("x", JSc (SInt 3))])]);
        ("extra", JNull); ("kind", JSc (SStr "a")); ("len", JSc (SInt 5))] /\
  outcome_of yes big big_text [1] =
  outcome_of yes big ["{'id':1,'list':[1,null,-20],'map':{'p':{'x':1,'y':2},'q':{'x':3}}, 'extra':null,'kind':'a','len':5}"] [].
Proof.
  split; [reflexivity|].
  refine (@C11_ignored_values json_tk 0 ye yes big (fresh_parser big) (texts big_text) 0 [1] _ 0 [] big_json big_reads eq_refl _).
  reads_new.
Qed.

Example ex_C12 : exists w, outcome_of yes obj3 ["{'c':1,'a':2}"] [] = Parsed [] w /\
                           outcome_of yes obj3 ["{'a':2,'c':1}"] [] = Parsed [] w.
Proof.
  eexists. split; [vm_compute; reflexivity|].
  refine (@C12_member_order_same json_tk 0 ye yes OPlain obj3_ms false None (fresh_parser obj3) (texts ["{'c':1,'a':2}"]) 0 []
    (texts ["{'a':2,'c':1}"]) 0 [] [("c", JSc (SInt 1)); ("a", JSc (SInt 2))] [("a", JSc (SInt 2)); ("c", JSc (SInt 1))]
    [] _ ltac:(reads_new) ltac:(reads_new) eq_refl eq_refl eq_refl obj3_named _ _ _).
  - apply perm_swap.
  - nodup.
  - vm_compute. reflexivity.
Qed.

(** With callbacks: those of the members run in the order of the document. *)
Example ex_C12_callbacks : exists w last,
  outcome_of popper obj24 ["{'b':'x','a':2}"] [] =
    Parsed [Ev 2 (OVal (VSc (SStr "x"))); Ev 1 (OVal (VSc (SInt 2))); last] w /\
  outcome_of popper obj24 ["{'a':2,'b':'x'}"] [] =
    Parsed [Ev 1 (OVal (VSc (SInt 2))); Ev 2 (OVal (VSc (SStr "x"))); last] w /\ ev_id last = 4.
Proof.
  destruct (@C12_member_order json_tk 0 ye popper OPlain obj24_ms false (Some 4) (fresh_parser obj24)
    (texts ["{'b':'x','a':2}"]) 0 [] (texts ["{'a':2,'b':'x'}"]) 0 []
    [("b", JSc (SStr "x")); ("a", JSc (SInt 2))] [("a", JSc (SInt 2)); ("b", JSc (SStr "x"))]
    [Ev 2 (OVal (VSc (SStr "x"))); Ev 1 (OVal (VSc (SInt 2)));
     Ev 4 (OSelf (View true false None 0 [View true false (Some (VSc (SInt 2))) 0 []; View true false (Some (VSc (SStr "x"))) 0 []]))]
    (View true false None 0 [View false false None 0 []; View true false (Some (VSc (SStr "x"))) 0 []])
    ltac:(reads_new) ltac:(reads_new) eq_refl eq_refl ltac:(heeds)) as (last & H1 & H2 & H3).
  - intros c _ l l' o. reflexivity.
  - exact obj24_named.
  - apply perm_swap.
  - nodup.
  - vm_compute. reflexivity.
  - destruct last as [|e [|? ?]]; try discriminate H1. simpl in H2. injection H2 as H2.
    eexists. exists e. split; [|split; [exact H3|]].
    + rewrite <- H2. vm_compute. reflexivity.
    + simpl in H1. congruence.
Qed.

(** The callback of the dropped occurrence is not invoked, nothing else changes. *)
Example ex_C13_callbacks : exists l1 l2 w,
  outcome_of popper obj24 ["{'a':2,'b':'x','a':3}"] [] = Parsed (l1 ++ Ev 1 (OVal (VSc (SInt 2))) :: l2) w /\
  outcome_of popper obj24 ["{'b':'x','a':3}"] [] = Parsed (l1 ++ l2) w.
Proof.
  assert (O : exists l w, outcome_of popper obj24 ["{'a':2,'b':'x','a':3}"] [] = Parsed l w)
    by (do 2 eexists; vm_compute; reflexivity).
  destruct O as (l & w & O).
  destruct (@C13_earlier_dropped json_tk 0 ye popper OPlain obj24_ms false (Some 4) (fresh_parser obj24)
    (texts ["{'a':2,'b':'x','a':3}"]) 0 [] (texts ["{'b':'x','a':3}"]) 0 []
    [] "a" (JSc (SInt 2)) [("b", JSc (SStr "x")); ("a", JSc (SInt 3))] l w
    ltac:(reads_new) ltac:(reads_new) eq_refl ltac:(heeds)) as (l1 & l2 & H1 & H2).
  - intros c _ m m' o. reflexivity.
  - exact obj24_named.
  - simpl. auto.
  - exact O.
  - exists l1, l2, w. split; [rewrite O, H1; reflexivity|exact H2].
Qed.

Example ex_C13 : exists w, outcome_of yes obj3 ["{'c':1,'a':2,'c':7}"] [] = Parsed [] w /\
  nth_error (v_kids w) 2 = Some (View true false (Some (VSc (SInt 7))) 0 []) /\
  outcome_of yes obj3 ["{'a':2,'c':7}"] [] = Parsed [] w.
Proof.
  assert (R : reads 0 ye obj3 (fresh_parser obj3) (texts ["{'c':1,'a':2,'c':7}"]) 0 []
            (JObj [("c", JSc (SInt 1)); ("a", JSc (SInt 2)); ("c", JSc (SInt 7))])) by reads_new.
  assert (H : exists w, outcome_of yes obj3 ["{'c':1,'a':2,'c':7}"] [] = Parsed [] w)
    by (eexists; vm_compute; reflexivity).
  destruct H as (w & H). exists w. split; [exact H|split].
  - exact (@C13_last_occurrence json_tk 0 ye yes OPlain obj3_ms false None _ _ _ _ _ [] w (or_introl eq_refl) ltac:(discriminate) R eq_refl ltac:(heeds)
      obj3_named H 2 _ _ "c" eq_refl eq_refl).
  - refine (@C13_earlier_dropped_same json_tk 0 ye yes OPlain obj3_ms false None _ _ _ _ (texts ["{'a':2,'c':7}"]) 0 []
      [] "c" (JSc (SInt 1)) [("a", JSc (SInt 2)); ("c", JSc (SInt 7))] [] w R ltac:(reads_new) eq_refl eq_refl obj3_named _ H).
    simpl. auto.
Qed.

Example ex_C14 : exists w, outcome_of yes obj3 ["{ }"] [] = Parsed [] w /\ v_set w = false /\ v_empty w = true.
Proof.
  eexists. apply (@C14_empty_object json_tk 0 ye yes obj3 (fresh_parser obj3) (texts ["{ }"]) 0 []); [exact I|reads_new].
Qed.

(** get<n>() after a document. *)
Definition obj3_after : api json_tk :=
  state_after (document (lift yes) 0 ye (texts ["{'c':1,'a':2,'c':null}"]) [0] (fresh_parser obj3)) (fresh_parser obj3).
Lemma obj3_after_ok : document (lift yes) 0 ye (texts ["{'c':1,'a':2,'c':null}"]) [0] (fresh_parser obj3) = AOk obj3_after.
Proof. apply ok_state. vm_compute. reflexivity. Qed.

Example ex_C15 : let p := m_root (a_m obj3_after) in
  get_nth 0 p = GVal (VSc (SInt 2)) /\ get_nth 1 p = GThrow msg_unset /\ get_nth 2 p = GVal (VSc (SInt 9)).
Proof.
  assert (R : reads 0 ye obj3 (fresh_parser obj3) (texts ["{'c':1,'a':2,'c':null}"]) 0 []
            (JObj [("c", JSc (SInt 1)); ("a", JSc (SInt 2)); ("c", JNull)])) by reads_new.
  pose proof (@C15_get_after_document json_tk 0 ye yes obj3_ms false None _ _ _ _ _ _ ltac:(discriminate) R eq_refl ltac:(heeds) obj3_named obj3_after_ok) as H.
  split; [|split].
  - exact (H 0 _ _ "a" eq_refl eq_refl eq_refl).
  - exact (H 1 _ _ "b" eq_refl eq_refl eq_refl).
  - exact (H 2 _ _ "c" eq_refl eq_refl eq_refl).
Qed.

Example ex_C15_pop : let p := m_root (a_m obj3_after) in
  fst (pop_nth 0 p) = GVal (VSc (SInt 2)) /\ get_nth 0 (snd (pop_nth 0 p)) = GThrow msg_unset.
Proof. vm_compute. auto. Qed.

(** ** C17, C18, C20: unions *)
Definition alt_a := SObj OAuto [must "p" int] false None.
Definition alt_b := SObj OAuto [must "q" text; dflt "r" (VSc (SBool false)) (SVal TyBool None)] false (Some 3).
Definition alts := [(mkM (SInt 1) false None, alt_a); (mkM (SInt 2) false None, alt_b)].
Definition uni := SUni true TyInt "t" alts None.
Example ex_C17 : exists kids v, outcome_of yes uni ["{'t':2,'r':true,'q':'x'}"] [] =
  Parsed [Ev 3 (OVal v)] (View true false (Some (VVar 1 (VTup [VSc (SStr "x"); VSc (SBool true)]))) 1 kids).
Proof.
  assert (R : reads 0 ye uni (fresh_parser uni) (texts ["{'t':2,'r':true,'q':'x'}"]) 0 []
     (JObj [("t", JSc (SInt 2)); ("r", JSc (SBool true)); ("q", JSc (SStr "x"))])) by reads_new.
  assert (R' : reads 0 ye alt_b (fresh_parser alt_b) (texts ["{'r':true,'q':'x'}"]) 0 []
     (JObj [("r", JSc (SBool true)); ("q", JSc (SStr "x"))])) by reads_new.
  pose proof (@C17_union_selects json_tk 0 ye yes true TyInt "t" alts None _ _ _ _ _ _ _ _ (SInt 2)
    [("r", JSc (SBool true)); ("q", JSc (SStr "x"))] 1 _ _ ltac:(discriminate) R eq_refl eq_refl eq_refl eq_refl eq_refl R' eq_refl) as H.
  assert (H' : exists v w, outcome_of yes alt_b ["{'r':true,'q':'x'}"] [] = Parsed [Ev 3 (OVal v)] w /\ v_set w = true /\
           v_val w = Some (VTup [VSc (SStr "x"); VSc (SBool true)]))
    by (do 2 eexists; split; [vm_compute; reflexivity|split; reflexivity]).
  destruct H' as (v & w & H1 & H2 & H3).
  pose proof H as G. rewrite H1 in G. destruct G as (_ & _ & _ & G & _).
  destruct (G _ eq_refl eq_refl ltac:(rewrite H2; exact H3)) as (kids & G'). exists kids, v. exact G'.
Qed.

Example ex_C17_errors :
  outcome_of yes uni ["{'q':2}"] [] = Failed [] "Unexpected member q" /\
  outcome_of yes uni ["{'t':'2'}"] [] = Failed [] "Unexpected token string" /\
  outcome_of yes uni ["{'t':3}"] [] = Failed [] "Unexpected member 3" /\
  outcome_of yes uni ["{'t':[]}"] [] = Failed [] "Unexpected token array start".
Proof.
  split; [|split; [|split]].
  - exact (proj1 (@C17_union_errors json_tk 0 ye yes true TyInt "t" alts None (fresh_parser uni) (texts ["{'q':2}"]) 0 []
      "q" (JSc (SInt 2)) [] ltac:(discriminate) ltac:(reads_new)) ltac:(discriminate)).
  - refine (proj1 (proj2 (@C17_union_errors json_tk 0 ye yes true TyInt "t" alts None (fresh_parser uni) (texts ["{'t':'2'}"]) 0 []
      "t" (JSc (SStr "2")) [] ltac:(discriminate) ltac:(reads_new))) eq_refl _ eq_refl _). discriminate.
  - refine (proj1 (proj2 (proj2 (@C17_union_errors json_tk 0 ye yes true TyInt "t" alts None (fresh_parser uni) (texts ["{'t':3}"]) 0 []
      "t" (JSc (SInt 3)) [] ltac:(discriminate) ltac:(reads_new)))) eq_refl _ eq_refl eq_refl _).
    intros mp [<-|[<-|[]]]; discriminate.
  - exact (proj2 (proj2 (proj2 (@C17_union_errors json_tk 0 ye yes true TyInt "t" alts None (fresh_parser uni) (texts ["{'t':[]}"]) 0 []
      "t" (JArr []) [] ltac:(discriminate) ltac:(reads_new)))) eq_refl _ eq_refl).
Qed.

Definition emb_ms := [must "a" (SVal TyInt (Some 1)); (mkM (SStr "k") true None, SUni true TyInt "" alts (Some 2))].
Definition emb := SObj OPlain emb_ms false (Some 4).
Example ex_C18 : exists evs w, outcome_of yes emb ["{'a':1,'k':2,'q':'x'}"] [] = Parsed evs w /\ map ev_id evs = [1; 3; 2; 4].
Proof.
  assert (R : reads 0 ye emb (fresh_parser emb) (texts ["{'a':1,'k':2,'q':'x'}"]) 0 []
    (JObj ([("a", JSc (SInt 1))] ++ ("k", JSc (SInt 2)) :: [("q", JSc (SStr "x"))]))) by reads_new.
  assert (H : exists l w, outcome_of yes emb ["{'a':1,'k':2,'q':'x'}"] [] = Parsed l w)
    by (do 2 eexists; vm_compute; reflexivity).
  destruct H as (l & w & H).
  destruct (proj2 (@C18_embedded_union json_tk 0 ye yes OPlain emb_ms false (Some 4) (fresh_parser emb) _ 0 []
    _ "k" (SInt 2) _ _ _ _ _ 1 1 _ _ R eq_refl ltac:(repeat constructor) eq_refl eq_refl eq_refl eq_refl eq_refl eq_refl) l w H)
    as (evs & H1 & H2).
  exists l, w. split; [exact H|]. rewrite H1. exact H2.
Qed.

Example ex_C20 : outcome_of yes emb ["{'a':1,'k':null}"] [] = outcome_of yes emb ["{'a':1}"] [].
Proof.
  refine (@C20_null_member_absent json_tk 0 ye yes OPlain emb_ms false (Some 4) (fresh_parser emb)
    (texts ["{'a':1,'k':null}"]) 0 [] (texts ["{'a':1}"]) 0 [] [("a", JSc (SInt 1))] "k" [] ltac:(reads_new) eq_refl ltac:(reads_new)
    _ _ _ _).
  - repeat constructor.
  - discriminate.
  - simpl. intuition discriminate.
  - discriminate.
Qed.

(** ** C22: the same document in two pieces and in one *)
Definition cut : mem := texts ["{'a':1,'k"; "':2,'q':'x'}"; "{'a':1,'k':2,'q':'x'}"].
Example ex_C22 :
  result (document (lift yes) 0 ye cut [0; 1] (fresh_parser emb)) = result (document (lift yes) 0 ye cut [2] (fresh_parser emb)) /\
  exists l w, result (document (lift yes) 0 ye cut [0; 1] (fresh_parser emb)) = Parsed l w.
Proof.
  split.
  - refine (proj2 (proj2 (@C22_chunks json_tk (lift yes) 0 ye cut 0 [1] 2 _ (fresh_parser emb) _ eq_refl))). reflexivity.
  - do 2 eexists. vm_compute. reflexivity.
Qed.

(** ** C24-C27, C34, C35: errors *)

(** A truncated document: parse() succeeds and finish() fails. *)
Example ex_C24 : ~ exists a', document (lift yes) 0 ye (texts ["{'a':1"]) [0] (fresh_parser emb) = AOk a'.
Proof.
  rewrite (@C24_finish_accepts json_tk (lift yes) 0 ye (texts ["{'a':1"]) 0 [] _ (fresh_parser emb) (at_start_new _ _ _ _) eq_refl).
  intros (ts & st & m & H & _). vm_compute in H. discriminate.
Qed.

(** A failed parse(), then finish(). *)
Definition failed : api json_tk :=
  state_after (parse (lift yes) 0 ye (texts ["{'a':1,'z':2"]) 0 (fresh_parser emb)) (fresh_parser emb).
Lemma failed_eq : exists x, parse (lift yes) 0 ye (texts ["{'a':1,'z':2"]) 0 (fresh_parser emb) = AThrow x failed /\
  pe_sj x = "Unexpected member z".
Proof.
  assert (exists x, is_throw (parse (lift yes) 0 ye (texts ["{'a':1,'z':2"]) 0 (fresh_parser emb)) = Some x /\ pe_sj x = "Unexpected member z")
    as (x & H1 & H2) by (eexists; split; [vm_compute; reflexivity|reflexivity]).
  exists x. split; [|exact H2]. apply throw_state. exact H1.
Qed.

Example ex_C25 : forall M2 y q, Api.finish (lift yes) 0 ye M2 failed = AThrow y q -> pe_sj y = "Unexpected member z".
Proof.
  destruct failed_eq as (x & H1 & H2). rewrite <- H2. intros M2 y q H.
  exact (proj1 (proj2 (proj2 (@C25_finish_after_error json_tk _ _ _ _ _ _ _ _ [] H1 failed eq_refl) M2) y q H)).
Qed.
Example ex_C25_occurs : exists y, is_throw (Api.finish (lift yes) 0 ye (texts ["{'a':1,'z':2"]) failed) = Some y /\ pe_sj y = "Unexpected member z".
Proof. eexists. split; [vm_compute; reflexivity|reflexivity]. Qed.

(** C34: the next document works, from the parser objects as the failed one left them. *)
Example ex_C34 :
  let q := {| a_m := mkS (m_root (a_m failed)) [[]] (m_log (a_m failed)); a_h := HLive json_tk (tk_init json_tk);
              a_err := ""; a_data := a_data failed; a_reset := false |} in
  observe (parse (lift yes) 0 ye (texts ["{'a':5}"]) 0 failed) = observe (parse (lift yes) 0 ye (texts ["{'a':5}"]) 0 q).
Proof.
  intros q. destruct failed_eq as (x & H1 & _).
  refine (@C34_next_document json_tk (lift yes) 0 ye (texts ["{'a':5}"]) 0 _ _ q failed _ eq_refl eq_refl eq_refl eq_refl eq_refl eq_refl eq_refl).
  - right. do 3 eexists. exact H1.
Qed.

(** C27: finish() while the buffer is alive. *)
Definition half_ops : list op := [OpParse (texts ["{'a':1"]) 0].
Definition half : api json_tk := state_after (do_ops (lift yes) 0 ye half_ops (fresh_parser emb)) (fresh_parser emb).
Lemma half_ok : do_ops (lift yes) 0 ye half_ops (fresh_parser emb) = AOk half.
Proof. apply ok_state. vm_compute. reflexivity. Qed.
Example ex_C27 : Api.finish (lift yes) 0 ye (texts ["{'a':1"]) half <> AUB json_tk UBBuffer.
Proof.
  refine (@C27_live_buffer_safe json_tk (lift yes) 0 ye half_ops (mk emb) [] (texts ["{'a':1"]) half half_ok _).
  intros M0 b bytes H1 H2. injection H1 as <- <-. exists bytes. split; [exact H2|lia].
Qed.

(** C35: a document fails inside the object; the SAutoObject is not set. *)
Definition unset_after : api json_tk :=
  state_after (document (lift yes) 0 ye (texts ["{'a':1,'e':2}"]) [0] (fresh_parser auto3)) (fresh_parser auto3).
Example ex_C35 : exists x, document (lift yes) 0 ye (texts ["{'a':1,'e':2}"]) [0] (fresh_parser auto3) = AThrow x unset_after /\
  (root_set unset_after = false \/ root_ended unset_after \/ root_callback_failed (lift yes) auto3 x unset_after).
Proof.
  assert (exists x, is_throw (document (lift yes) 0 ye (texts ["{'a':1,'e':2}"]) [0] (fresh_parser auto3)) = Some x)
    as (x & H1) by (eexists; vm_compute; reflexivity).
  apply (@throw_state _ (fresh_parser auto3)) in H1. exists x. split; [exact H1|].
  exact (@C35_unset_after_failure json_tk (lift yes) (lift yes) 0 ye auto3 [] [] (fresh_parser auto3) (texts ["{'a':1,'e':2}"]) 0 [] _ x
    unset_after eq_refl (at_start_new _ _ _ _) eq_refl eq_refl H1).
Qed.
Example ex_C35_run : root_set unset_after = false.
Proof. vm_compute. reflexivity. Qed.

(** ** C30: a declaration with a repeated name in a nested object *)
Example ex_C30 : build (fun _ => "") (SArr true (SObj OPlain [must "a" int; must "b" int; must "a" text] false None) None) =
  inl (XStd "Member a appears more, than once").
Proof. reflexivity. Qed.

(** ** C33: a parser object left in the middle of a document, given to a new Parser *)
Example ex_C33 : let p := m_root (a_m failed) in
  doc 1 ye yes (texts ["{'a':5,'k':1,'p':3}"]) 0 [] (start json_tk 1 p []) =
  doc 1 ye yes (texts ["{'a':5,'k':1,'p':3}"]) 0 [] (start json_tk 1 (mk emb) []) /\
  exists l w, doc 1 ye yes (texts ["{'a':5,'k':1,'p':3}"]) 0 [] (start json_tk 1 p []) = Parsed l w.
Proof.
  intros p. assert (Hs : schema_of p = emb) by (vm_compute; reflexivity).
  assert (Hb : exists bs, content (texts ["{'a':5,'k':1,'p':3}"]) [0] = Some bs /\
    tokenize json_tk bs = (toks (JObj [("a", JSc (SInt 5)); ("k", JSc (SInt 1)); ("p", JSc (SInt 3))]), Some (J [] EDone LNone)))
    by (eexists; split; [vm_compute; reflexivity|vm_compute; reflexivity]).
  destruct Hb as (bs & H1 & H2).
  split.
  - etransitivity; [refine (@C33_reattached json_tk 1 ye yes p [] _ 0 [] bs _ _ _ H1 H2 _); rewrite Hs; reflexivity|].
    rewrite Hs. reflexivity.
  - do 2 eexists. vm_compute. reflexivity.
Qed.

(** ** C39: after a document, the list's callback is replaced and the map's element callback removed *)
Definition big_new : api json_tk := user_set_callback Element [Mem 2] None (user_set_callback Finish [Mem 1] (Some 77) big2).
Definition big_decl : schema := declare_at Element [Mem 2] None (declare_at Finish [Mem 1] (Some 77) big).

Example ex_C39 :
  doc 0 ye yes (texts big_text) 0 [1] big_new = doc 0 ye yes (texts big_text) 0 [1] (start json_tk 0 (mk big_decl) (past big2)) /\
  exists evs w, doc 0 ye yes (texts big_text) 0 [1] big_new = Parsed (past big2 ++ evs) w /\
    map ev_id evs = [1; 77; 4; 5; 6; 8; 9].
Proof.
  split.
  - refine (@C39_like_declared json_tk 0 ye yes (declare_at Finish [Mem 1] (Some 77) big) (user_set_callback Finish [Mem 1] (Some 77) big2)
      Element [Mem 2] None (texts big_text) 0 [1] _ big_json (J [] EDone LNone) _ _ eq_refl eq_refl eq_refl).
    + eapply h_callback; [exact (proj1 big2_reads)|reflexivity].
    + left. vm_compute. reflexivity.
  - do 2 eexists. split; [vm_compute; reflexivity|reflexivity].
Qed.

(** ** C40: the same declaration with and without callbacks that only look (all but 9, which
    returns false from the second time on) *)
Definition looking (c : cbid) : bool := negb (Nat.eqb c 9).
Definition fussy : prog :=
  mkP (fun c l _ => if looking c then mkA [] None CTrue
                    else mkA [] None (if existsb (fun e => Nat.eqb (ev_id e) 9) l then CFalse else CTrue)) (fun _ => "?") (fun _ => None).
Definition big_bare : schema :=
  SObj OPlain
    [must "id" int; may "list" (SArr true (SVal TyInt (Some 20)) None);
     may "map" (SMp true (SObj OAuto [must "x" (SVal TyInt (Some 21)); dflt "y" (VSc (SInt 0)) int] false None) None (Some 4));
     may "kind" (SUni false TyStr "" 
        [(mkM (SStr "a") false None, SObj OPlain [must "len" int] false None);
         (mkM (SStr "b") false None, SObj OCustom [may "s" text] false None)] (Some 22))]
    true (Some 9).
Definition big_calls : list op :=
  [OpParse (texts big_text) 0; OpParse (texts big_text) 1; OpFinish (texts big_text);   (* accepted *)
   OpParse (texts ["{'id':1,'list':[true"]) 0; OpFinish (texts ["{'id':1,'list':[true"]); (* rejected *)
   OpParse (texts ["{'id':1,'kind':'a','len':3}"]) 0].                                  (* rejected by the callback *)

Lemma fussy_looks : only_look looking fussy.
Proof.
  split; intros c l o Hc; simpl; rewrite Hc; auto. f_equal.
  replace (existsb (fun e => Nat.eqb (ev_id e) 9) l) with
    (existsb (fun e => Nat.eqb (ev_id e) 9) (filter (fun e => match e with Ev i _ => negb (looking i) end) l)); auto.
  induction l as [|[i u] l IH]; simpl; auto. unfold looking at 1. rewrite Bool.negb_involutive.
  destruct (Nat.eqb i 9) eqn:Hi; simpl; rewrite ?Hi; auto.
Qed.

Lemma bare_same : same_decl looking big big_bare.
Proof.
  assert (L : forall c c', same_but looking (Some c) (Some c') -> same_but looking (Some c) (Some c')) by auto.
  repeat first [apply sb_same | constructor; [] | apply sb_look; intros ? [=]; subst; reflexivity | constructor; simpl].
Qed.

Example ex_C40 :
  replies looking (lift fussy) 0 ye big_calls (fresh_parser big) = replies looking (lift fussy) 0 ye big_calls (fresh_parser big_bare) /\
  map (fun r => match r with Returned l _ => Some (List.length l, "") | Threw e _ l _ => Some (List.length l, e) | Crashed => None end)
    (replies looking (lift fussy) 0 ye big_calls (fresh_parser big)) =
  [Some (0, ""); Some (1, ""); Some (1, ""); Some (1, "Unexpected token boolean"); Some (1, "Unexpected token boolean"); Some (2, "Callback returned false")].
Proof.
  split; [exact (@C40_same_replies looking json_tk fussy 0 ye big big_bare [] big_calls fussy_looks bare_same)|].
  vm_compute. reflexivity.
Qed.

(** Between the two parse() calls of the document, the list's callback is replaced. *)
Definition big_half : api json_tk :=
  state_after (parse (lift fussy) 0 ye (texts big_text) 0 (fresh_parser big)) (fresh_parser big).
Example ex_C40_replaced : m_stack (a_m big_half) = [[]] /\
  replies looking (lift fussy) 0 ye [OpParse (texts big_text) 1; OpFinish (texts big_text)] (user_set_callback Finish [Mem 1] (Some 20) big_half) =
  replies looking (lift fussy) 0 ye [OpParse (texts big_text) 1; OpFinish (texts big_text)] big_half.
Proof.
  split; [vm_compute; reflexivity|].
  assert (K : exists p, get [Mem 1] (m_root (a_m big_half)) = Some p /\ callback_of Finish p = Some 2)
    by (eexists; split; [vm_compute; reflexivity|reflexivity]).
  destruct K as (p & K1 & K2).
  eapply C40_replaced_anytime; [exact fussy_looks|exact K1|]. rewrite K2. apply sb_look; intros ? [=]; subst; reflexivity.
Qed.

(** ** C31: Object{tuple{Member{"a", SArray{Value<int>{}}}}}, moved, the source destroyed *)
Definition o_val := XVal base0 TyInt (VSc (SInt 0)) None.
Definition o_arr := XArr base0 false true [] (Some (1, [0])) (Own o_val) None.
Definition o_arr_in (id : nat) := XArr base0 false true [] (Some (id, [0; 0])) (Own o_val) None.
Definition m_a := mkM (SStr "a") false None.
Definition tb_a (id : nat) : tables :=
  match new_tables (id, []) 0 [(m_a, Own (o_arr_in id))] with Some tb => tb | None => no_tables end.
Definition o_obj := XObj base0 OPlain (VTup []) (tb_a 2) [(m_a, Own (o_arr_in 2))] ig0 false None.

Example ex_C31 : exists m o q tb ms,
  program false m /\ m 3 = Some (true, o) /\ m 2 = None /\ inside [] o = Some q /\ tables_of q = Some (tb, ms) /\
  find_key (SStr "a") (t_map tb) = Some (3, [0]) /\ find_key (SStr "b") (t_map tb) = None /\
  (exists b sd st vals e cb, inside [0] o = Some (XArr b sd st vals (Some (3, [0; 0])) e cb)).
Proof.
  set (m0 := mem_set (fun _ => None) 0 (true, o_val)).
  assert (P0 : program false m0).
  { eapply pr_step; [apply pr_start|]. eapply p_make; [reflexivity|constructor|reflexivity]. }
  set (m1 := mem_set (mem_set m0 0 (false, o_val)) 1 (true, o_arr)).
  assert (P1 : program false m1).
  { eapply pr_step; [exact P0|]. eapply p_make; [reflexivity| |reflexivity].
    eapply make_arr with (x := AMove 0) (e := Own o_val). apply (@take_move m0 (1, [0]) 0 o_val). reflexivity. }
  set (m2 := mem_set (mem_set m1 1 (false, o_arr)) 2 (true, o_obj)).
  assert (P2 : program false m2).
  { eapply pr_step; [exact P1|]. eapply p_make; [reflexivity| |reflexivity].
    eapply make_obj with (xs := [(m_a, AMove 1)]) (rd := nowhere); [|reflexivity|reflexivity].
    econstructor; [constructor|]. apply (@take_move m1 (2, [0]) 1 o_arr). reflexivity. }
  set (m3 := mem_set (mem_set m2 2 (false, o_obj)) 3 (true, move (3, []) o_obj)).
  assert (P3 : program false m3) by (eapply pr_step; [exact P2|]; apply p_move; reflexivity).
  exists (fun j => if Nat.eqb j 2 then None else m3 j), (move (3, []) o_obj). do 3 eexists.
  assert (P4 : program false (fun j => if Nat.eqb j 2 then None else m3 j))
    by (eapply pr_step; [exact P3|]; apply p_destroy).
  split; [exact P4|split; [reflexivity|split; [reflexivity|split; [reflexivity|split; [reflexivity|]]]]].
  split; [|split].
  - exact (@C31_lookup false _ 3 _ [] _ _ _ (SStr "a") P4 eq_refl eq_refl eq_refl).
  - exact (@C31_lookup false _ 3 _ [] _ _ _ (SStr "b") P4 eq_refl eq_refl eq_refl).
  - do 6 eexists. reflexivity.
Qed.

(** What it parses: C31_moved_parses. *)
Example ex_C31_parses :
  doc 0 ye yes (texts ["{'a':[1,2]}"]) 0 [] (start json_tk 0 (state nowhere (move (3, []) o_obj)) []) =
  Parsed [] (View true false None 0 [View true false (Some (VVec [VSc (SInt 1); VSc (SInt 2)])) 0 []]).
Proof. vm_compute. reflexivity. Qed.

(** ** Callbacks that reach other parsers

    The object {"a": int, "b": int, "n": {"c": int}}. The callback of "c" (1) pops "a"
    through a captured reference; the callback of "b" (2) returns whether "a" is set. *)
Definition reach : env :=
  mkEnv (fun c l T a =>
         match c with
         | 1 => mkCO [] [[Mem 0]] None CTrue
         | 2 => mkCO [] [] None (match get [Mem 0] T with Some p => if is_set p then CTrue else CFalse | None => CFalse end)
         | _ => mkCO [] [] None CTrue
         end) (fun _ => "?") (fun _ => None) (fun _ _ => None).
Definition reach_s : schema :=
  SObj OPlain [may "a" int; may "b" (SVal TyInt (Some 2)); may "n" (SObj OPlain [must "c" (SVal TyInt (Some 1))] false None)] false (Some 3).
Definition reach_doc (t : string) : ares json_tk :=
  document reach 0 ye (texts [t]) [0] (fresh_parser reach_s).
(** What isSet() of "a" says and the last callbacks, or the error. *)
Definition told_by (r : ares json_tk) : option (string + (option bool * list event)) :=
  match r with
  | AOk a => Some (inr (option_map is_set (get [Mem 0] (m_root (a_m a))), m_log (a_m a)))
  | AThrow x _ => Some (inl (pe_sj x))
  | _ => None
  end.

Example ex_reach_order :
  told_by (reach_doc "{'a':1,'b':2}") = Some (inr (Some true, [Ev 2 (OVal (VSc (SInt 2))); Ev 3 (OSelf (View true false None 0
     [View true false (Some (VSc (SInt 1))) 0 []; View true false (Some (VSc (SInt 2))) 0 [];
      View false true None 0 [View false true None 0 []]]))])) /\
  told_by (reach_doc "{'b':2,'a':1}") = Some (inl msg_cb_false) /\
  told_by (reach_doc "{'a':1,'n':{'c':3},'b':2}") = Some (inl msg_cb_false) /\
  match told_by (reach_doc "{'a':1,'n':{'c':3}}") with
  | Some (inr (Some false, [Ev 1 _; Ev 3 _])) => True
  | _ => False
  end.
Proof. vm_compute. repeat split. Qed.

(** ** C41: part of the document above *)
Definition part_text : list string :=
  ["{'id':1,'list':[1,nul"; "l,-20],'map':{'p':{'x':1,'y':2},'q':{'x':3"; ",'y':4"].
Definition part_q : beginning :=
  PtObjIn [("id", JSc (SInt 1)); ("list", JArr [JSc (SInt 1); JNull; JSc (SInt (-20))])] "map"
    (PtObjIn [("p", JObj [("x", JSc (SInt 1)); ("y", JSc (SInt 2))])] "q"
       (PtKey [("x", JSc (SInt 3))] "y")).

Lemma part_received : receives 0 ye big (fresh_parser big) (texts part_text) 0 [1; 2] (part_toks part_q).
Proof.
  split; [apply h_new|split; [apply at_start_new|]].
  eexists; eexists; split; [vm_compute; reflexivity|vm_compute; reflexivity].
Qed.

(** (The number 4 is not complete: the next byte could be another digit.)  The callbacks
    of "id", "list" and of the first map element have run; the identifier and the list
    can be read; the map has no value yet. *)
Example ex_C41 :
  fed 0 ye yes (texts part_text) 0 [1; 2] (fresh_parser big) =
  Parsed (firstn 3 big_log)
    (View false false None 0
       [View true false (Some (VSc (SInt 1))) 0 [];
        View true false (Some (VVec [VSc (SInt 1); VSc (SInt (-20))])) 0 [];
        View false false None 0 [];
        fresh (SUni false TyStr "" 
          [(mkM (SStr "a") false None, SObj OPlain [must "len" (SVal TyInt (Some 5))] false (Some 6));
           (mkM (SStr "b") false None, SObj OCustom [may "s" text] false (Some 7))] (Some 8))]).
Proof.
  etransitivity; [exact (@C41_beginning_outcome _ _ _ yes _ _ _ _ _ _ part_received eq_refl)|].
  vm_compute. reflexivity.
Qed.

(** The rest of an object belongs to its embedded union. *)
Definition part_text2 : list string := ["{'id':1,'kind':'a','len':5 "].
Example ex_C41_union : exists v,
  fed 0 ye yes (texts part_text2) 0 [] (fresh_parser big) =
  Parsed [Ev 1 (OVal (VSc (SInt 1))); Ev 5 (OVal (VSc (SInt 5)))] v /\ v_set v = false.
Proof.
  eexists. split.
  - etransitivity; [exact (@C41_beginning_outcome json_tk 0 ye yes big (fresh_parser big) (texts part_text2) 0 []
      (PtObj [("id", JSc (SInt 1)); ("kind", JSc (SStr "a")); ("len", JSc (SInt 5))])
      ltac:(split; [apply h_new|split; [apply at_start_new|]]; eexists; eexists;
            split; [vm_compute; reflexivity|vm_compute; reflexivity]) eq_refl)|vm_compute; reflexivity].
  - reflexivity.
Qed.

(** The whole text, before finish(). *)
Example ex_C41_whole : exists l w,
  fed 0 ye yes (texts big_text) 0 [1] (fresh_parser big) = Parsed l w /\ v_set w = true /\ List.length l = 9.
Proof.
  do 2 eexists. split.
  - etransitivity; [exact (@C41_whole_text json_tk 0 ye yes big (fresh_parser big) (texts big_text) 0 [1] big_json
      ltac:(split; [apply h_new|split; [apply at_start_new|]]; eexists; eexists;
            split; [vm_compute; reflexivity|vm_compute; reflexivity]) big_supported)|vm_compute; reflexivity].
  - split; reflexivity.
Qed.

(** ** C42: memory runs out twice between two documents *)
Definition oom_calls : list fop :=
  [FParse false (texts big_text) 0; FParse true (texts big_text) 1; FFinish (texts big_text);    (* accepted *)
   FParse false (texts ["{'id':1"]) 0; FParse false (texts ["{'id':1"]) 0;                       (* no memory *)
   FParse true (texts ["{'id':true}"]) 0;                                                       (* rejected *)
   FParse false (texts big_text) 0;                                                             (* no memory *)
   FParse true (texts big_text) 0; FParse false (texts big_text) 1; FFinish (texts big_text)].   (* accepted *)

Definition oom_new : fapi json_tk := whole (fresh_parser big).

Example ex_C42 :
  (let rs := freplies (lift yes) 0 ye oom_calls oom_new in
   ordinary rs = replies (fun _ => false) (lift yes) 0 ye (served oom_calls rs) (fresh_parser big)) /\
  map (fun r => match r with
       | Ordinary (Returned l w) => Some (List.length l, v_set w, "")
       | Ordinary (Threw e _ l w) => Some (List.length l, v_set w, e)
       | OutOfMemory e l w => Some (List.length l, v_set w, e)
       | _ => None end) (freplies (lift yes) 0 ye oom_calls oom_new) =
  [Some (1, false, ""); Some (9, true, ""); Some (9, true, "");
   Some (9, true, "Can not allocate YAJL handle"); Some (9, true, "Can not allocate YAJL handle");
   Some (9, false, "Unexpected token boolean");
   Some (9, false, "Can not allocate YAJL handle");
   Some (10, false, ""); Some (18, true, ""); Some (18, true, "")].
Proof.
  split; [|vm_compute; reflexivity].
  apply (@C42_no_trace json_tk (lift yes) 0 ye (mk big) [] oom_calls oom_new eq_refl).
  assert (K : forall n, existsb (Nat.eqb n) [2; 9] = true ->
    match List.last (freplies (lift yes) 0 ye (firstn n oom_calls) oom_new) NullHandle with Ordinary _ => True | _ => False end).
  { intros n. simpl. rewrite !orb_true_iff, !Nat.eqb_eq. intros [->|[->|Hf]]; [vm_compute; exact I|vm_compute; exact I|discriminate]. }
  intros before M after He _ (t & l' & w & rs & Hr).
  assert (Hb : before = firstn (List.length before) oom_calls).
  { rewrite He, firstn_app, Nat.sub_diag, firstn_all, app_nil_r. reflexivity. }
  assert (Hn : existsb (Nat.eqb (List.length before)) [2; 9] = true).
  { assert (Hnth : nth_error oom_calls (List.length before) = Some (FFinish M)).
    { rewrite He, nth_error_app2, Nat.sub_diag by auto. reflexivity. }
    assert (Hlt : List.length before < 10) by (apply (f_equal (@List.length _)) in He; rewrite app_length in He; simpl in He; lia).
    destruct (List.length before) as [|[|[|[|[|[|[|[|[|[|n]]]]]]]]]]; simpl in Hnth; try discriminate; auto. lia. }
  specialize (K _ Hn). rewrite <- Hb, Hr, last_last in K. exact K.
Qed.

(** The fourth call: std::runtime_error, as the previous call was finish(); directly after
    it, finish() would crash. *)
Example ex_C42_when :
  match f_ops (lift yes) 0 ye (firstn 3 oom_calls) oom_new with
  | Some y =>
      match f_op (lift yes) 0 ye (FParse false (texts ["{'id':1"]) 0) y with
      | FRuntime _ z => match f_op (lift yes) 0 ye (FFinish (texts ["{'id':1"])) z with FUB _ FNullHandle => True | _ => False end
      | _ => False
      end
  | None => False
  end /\
  (let rs := freplies (lift yes) 0 ye (firstn 3 oom_calls) oom_new in
   new_document false (served (firstn 3 oom_calls) rs) (ordinary rs) = true).
Proof. split; vm_compute; auto. Qed.

(** ** C16: the callback of "c" pops "a" through a captured reference *)
Definition reach_before : mstate :=
  match run reach 0 [TMapStart; TKey "a"; TSc (SInt 1); TKey "n"; TMapStart; TKey "c"] (attach 0 (mk reach_s) []) with
  | ROk m => m | _ => attach 0 (mk reach_s) []
  end.
Definition reach_after : mstate :=
  match dispatch reach 0 (TSc (SInt 3)) reach_before with ROk m => m | _ => reach_before end.

Example ex_C16_callback :
  option_map get_value (get [Mem 0] (m_root reach_before)) = Some (Some (VSc (SInt 1))) /\
  exists p, get [Mem 0] (m_root reach_after) = Some p /\ is_set p = false /\ get_value p = None /\ pop_value p = None.
Proof.
  split; [vm_compute; reflexivity|].
  apply (@C16_callback_pop reach 0 reach_before reach_after (TSc (SInt 3)) [Mem 0] int 1 [] (OVal (VSc (SInt 3)))).
  - vm_compute; reflexivity.
  - vm_compute; reflexivity.
  - reflexivity.
  - intros l T a. left. reflexivity.
  - left. vm_compute. reflexivity.
  - vm_compute. reflexivity.
Qed.

(** ** C43: a user type whose values are built from "n" and throw when 3 is stored (an int)
    or 4 (a std::exception) *)
Definition picky : prog := mkP
  (fun c _ o => match c, o with
                | 1, OCust w _ => mkA [] (match v_kids w with k :: _ => v_val k | _ => None end) CTrue
                | _, _ => mkA [] None CTrue
                end)
  (fun _ => "")
  (fun v => match v with
            | VCust (Some (VSc (SInt 3))) => Some XOther
            | VCust (Some (VSc (SInt 4))) => Some (XStd "four")
            | _ => None
            end).
Definition pick_s := SObj OCustom [must "n" int] false (Some 1).
Definition picked (z : Z) : value := VCust (Some (VSc (SInt z))).

Example ex_C43_array : exists l,
  outcome_of picky (SArr true pick_s (Some 2)) ["[{'n':1},{'n':4},{'n':5}]"] [] = Failed l "four" /\ map ev_id l = [1; 1].
Proof.
  eexists. split.
  - refine (@C43_array_throws json_tk 0 ye picky pick_s (Some 2) (fresh_parser (SArr true pick_s (Some 2)))
      (texts ["[{'n':1},{'n':4},{'n':5}]"]) 0 [] [JObj [("n", JSc (SInt 1))]] (JObj [("n", JSc (SInt 4))]) [JObj [("n", JSc (SInt 5))]]
      [picked 1] (picked 4) (XStd "four") ltac:(reads_new) eq_refl ltac:(heed) _ ltac:(discriminate) _ eq_refl).
    + repeat constructor. eexists; split; reflexivity.
    + eexists; split; reflexivity.
  - reflexivity.
Qed.

Example ex_C43_map : exists l,
  outcome_of picky (SMp true pick_s None (Some 2)) ["{'a':{'n':1},'a':{'n':3},'b':{'n':5}}"] [] = Failed l "Unknown exception" /\
  map ev_id l = [1; 1].
Proof.
  eexists. split.
  - refine (@C43_map_throws json_tk 0 ye picky pick_s (Some 2) (fresh_parser (SMp true pick_s None (Some 2)))
      (texts ["{'a':{'n':1},'a':{'n':3},'b':{'n':5}}"]) 0 [] [("a", JObj [("n", JSc (SInt 1))])] "a" (JObj [("n", JSc (SInt 3))]) [("b", JObj [("n", JSc (SInt 5))])]
      [picked 1] (picked 3) XOther ltac:(reads_new) eq_refl ltac:(heed) eq_refl _ _ eq_refl).
    + repeat constructor. eexists; split; reflexivity.
    + eexists; split; reflexivity.
  - reflexivity.
Qed.

Definition pick_ms := [must "a" pick_s; dflt "b" (picked 4) pick_s; must "c" int].
Definition pick_auto := SObj OAuto pick_ms false (Some 2).
Lemma pick_named : named pick_ms.
Proof. is_named ["a"; "b"; "c"]. Qed.
Example ex_C43_auto :
  map (fun t => match outcome_of picky pick_auto [t] [] with Failed l m => (map ev_id l, m) | _ => ([], "") end)
    ["{'c':7,'a':{'n':3},'b':{'n':1}}"; "{'c':7,'a':{'n':3}}"] =
  [([1; 1], "Can not set value: unknown exception"); ([1], "Can not set value: four")].
Proof.
  cbn [map].
  rewrite (@C43_auto_throws json_tk 0 ye picky pick_ms false (Some 2) (fresh_parser pick_auto) (texts ["{'c':7,'a':{'n':3},'b':{'n':1}}"]) 0 []
      [("c", JSc (SInt 7)); ("a", JObj [("n", JSc (SInt 3))]); ("b", JObj [("n", JSc (SInt 1))])] 0 (must "a" pick_s) (picked 3) XOther
      ltac:(reads_new) eq_refl ltac:(heeds) pick_named ltac:(discriminate) ltac:(pairs_ok) eq_refl);
    [|reflexivity|reflexivity|].
  2:{ intros [|[|[|[|i]]]] mp Hi H1; simpl in H1; try discriminate; try lia; injection H1 as <-; eexists; (split; [cbn; auto|reflexivity]). }
  rewrite (@C43_auto_throws json_tk 0 ye picky pick_ms false (Some 2) (fresh_parser pick_auto) (texts ["{'c':7,'a':{'n':3}}"]) 0 []
      [("c", JSc (SInt 7)); ("a", JObj [("n", JSc (SInt 3))])] 1 (dflt "b" (picked 4) pick_s) (picked 4) (XStd "four")
      ltac:(reads_new) eq_refl ltac:(heeds) pick_named ltac:(discriminate) ltac:(pairs_ok) eq_refl);
    [|cbn; auto|reflexivity|].
  2:{ intros [|[|[|[|i]]]] mp Hi H1; simpl in H1; try discriminate; try lia; injection H1 as <-; eexists; (split; [cbn; auto|reflexivity]). }
  reflexivity.
Qed.

Definition pick_uni := SUni true TyInt "t" [(mkM (SInt 1) false None, pick_s); (mkM (SInt 2) false None, alt_b)] None.
Example ex_C43_union : exists l, outcome_of picky pick_uni ["{'t':1,'n':4}"] [] = Failed l "Can not set value: four" /\ map ev_id l = [1].
Proof.
  assert (H' : exists l w, outcome_of picky pick_s ["{'n':4}"] [] = Parsed l w /\ map ev_id l = [1] /\ v_set w = true /\ v_val w = Some (picked 4))
    by (do 2 eexists; split; [vm_compute; reflexivity|split; [|split]; reflexivity]).
  destruct H' as (l & w & H1 & H2 & H3 & H4). exists l. split; [|exact H2].
  exact (@C43_union_throws json_tk 0 ye picky TyInt "t" [(mkM (SInt 1) false None, pick_s); (mkM (SInt 2) false None, alt_b)]
    (fresh_parser pick_uni) (fresh_parser pick_s) (texts ["{'t':1,'n':4}"]) 0 [] (texts ["{'n':4}"]) 0 [] (SInt 1) [("n", JSc (SInt 4))]
    0 (mkM (SInt 1) false None) pick_s l w (picked 4) (XStd "four") ltac:(discriminate) ltac:(reads_new) eq_refl eq_refl eq_refl eq_refl eq_refl
    ltac:(reads_new) eq_refl H1 ltac:(rewrite H3; exact H4) eq_refl).
Qed.

(** After a document that throws and one that does not, in one Parser: the map has
    elements that may be stored only. *)
Definition fine (v : value) : Prop := v <> picked 3 /\ v <> picked 4.
Definition pick_map := SMp true (SMp true pick_s None None) None None.
Definition pick1 : api json_tk :=
  state_after (parse (lift picky) 0 ye (texts ["{'x':{'a':{'n':1},'b':{'n':4}}}"]) 0 (fresh_parser pick_map)) (fresh_parser pick_map).
Definition pick2 : api json_tk := state_after (parse (lift picky) 0 ye (texts ["{'x':{'a':{'n':1}},'y':{'a':{'n':2},'b':{'n':5}}}"]) 0 pick1) pick1.
Example ex_C43_kept :
  get_value (m_root (a_m pick1)) = None /\
  get_value (m_root (a_m pick2)) = Some (VMap [("x", VMap [("a", picked 1)]); ("y", VMap [("a", picked 2); ("b", picked 5)])]) /\
  all_kept fine (VMap [("x", VMap [("a", picked 1)]); ("y", VMap [("a", picked 2); ("b", picked 5)])]).
Proof.
  assert (H1 : get_value (m_root (a_m pick1)) = None) by (vm_compute; reflexivity).
  assert (H2 : get_value (m_root (a_m pick2)) = Some (VMap [("x", VMap [("a", picked 1)]); ("y", VMap [("a", picked 2); ("b", picked 5)])])) by (vm_compute; reflexivity).
  split; [exact H1|]. split; [exact H2|].
  assert (HE : forall v, e_store (lift picky) v = None -> fine v).
  { intros v Hv. split; intros ->; discriminate. }
  assert (Hg : defaults_fine fine pick_map).
  { repeat constructor. intros m c d [He|[]] Hd. injection He as <- <-. discriminate. }
  assert (U0 : used_by ye fine pick_map [] 0 (fresh_parser pick_map)) by constructor.
  assert (U1 : used_by ye fine pick_map [] 0 pick1).
  { apply (@ub_call _ _ _ _ _ _ (fresh_parser pick_map) (lift picky) (OpParse (texts ["{'x':{'a':{'n':1},'b':{'n':4}}}"]) 0) _ U0 HE).
    right. eexists. apply throw_state. vm_compute. reflexivity. }
  assert (U2 : used_by ye fine pick_map [] 0 pick2).
  { apply (@ub_call _ _ _ _ _ _ pick1 (lift picky) (OpParse (texts ["{'x':{'a':{'n':1}},'y':{'a':{'n':2},'b':{'n':5}}}"]) 0) _ U1 HE).
    left. apply ok_state. vm_compute. reflexivity. }
  exact (proj1 (@C43_kept json_tk ye fine pick_map [] 0 pick2 Hg U2) [] _ _ eq_refl H2).
Qed.

(** ** C44: the parser of [big3] (a supported document, a pop, a failed document), and
    text that is no JSON, is cut off, has an unexpected value, or is a complete document:
    the reply is that of a new parser. *)
Definition odd_texts : list (list string) :=
  [["{'id':1,'li"; "st':[1,2}"]; ["{'id':1,'map':{'p':{'x':1"]; ["{'id':1,'list':[1,true]}"]; ["{'map':null,'kind':'a','l"; "en':'x'}"];
   big_text2; ["{'id':3,'list':[null,4],'map':{}}"]; ["]"]].

Definition bufs_of (l : list string) : list nat := seq 1 (List.length l - 1).
Definition reply (r : ares json_tk) : option (string * list nat * list bool) :=
  match r with
  | AOk a => Some ("ok", map ev_id (past a), map v_set (v_kids (view_of (m_root (a_m a)))))
  | AThrow x a => Some (pe_sj x, map ev_id (past a), map v_set (v_kids (view_of (m_root (a_m a)))))
  | _ => None
  end.

Example ex_C44 : Forall (fun l =>
  same_reply (exists t r, fst (tokenize json_tk (list_ascii_of_string (js (String.concat "" l)))) = t :: r /\ opener KObj t = true)
    (document (lift no2) 0 ye (texts l) (0 :: bufs_of l) big3)
    (document (lift no2) 0 ye (texts l) (0 :: bufs_of l) (start json_tk 0 (mk big) (past big3)))) odd_texts.
Proof.
  destruct big3_history as [Hh Ha].
  assert (K : forall l, In l odd_texts -> content (texts l) (0 :: bufs_of l) = Some (list_ascii_of_string (js (String.concat "" l)))).
  { intros l Hl. repeat (destruct Hl as [<-|Hl]; [vm_compute; reflexivity|]). destruct Hl. }
  apply Forall_forall. intros l Hl.
  exact (@C44_like_new_json (lift no2) 0 ye true big big3 (texts l) 0 (bufs_of l) _ (lift_same_eyes no2) eq_refl Hh Ha (K l Hl) (or_introl eq_refl)).
Qed.

(** What the replies are. *)
Example ex_C44_run : map (fun l => reply (document (lift no2) 0 ye (texts l) (0 :: bufs_of l) (start json_tk 0 (mk big) []))) odd_texts =
  [Some ("", [1], [true; false; false; false]); Some ("", [1], [true; false; false; false]);
   Some ("Unexpected token boolean", [1], [true; false; false; false]);
   Some ("Unexpected token string", [], [false; false; false; false]);
   Some ("ok", [1; 7; 8; 9], [true; false; false; true]);
   Some ("Callback returned false", [1; 2], [true; true; false; false]);
   Some ("", [], [false; false; false; false])].
Proof. vm_compute. reflexivity. Qed.

(** The last text has no token; the used parser keeps what it has. *)
Example ex_C44_untouched : exists x a', document (lift no2) 0 ye (texts ["]"]) [0] big3 = AThrow x a' /\
  past a' = past big3 /\ m_root (a_m a') = m_root (a_m big3) /\ (map v_set (v_kids (view_of (m_root (a_m big3))))) = [false; true; false; false].
Proof.
  destruct big3_history as [Hh Ha].
  destruct (@C44_untouched json_tk (lift no2) 0 ye true big big3 (texts ["]"]) 0 [] _ eq_refl Hh Ha eq_refl (json_placed _)) as (x & a' & H1 & H2 & H3).
  - intros (t & r & K & _). vm_compute in K. discriminate K.
  - exists x, a'. split; [exact H1|]. split; [exact H2|]. split; [exact H3|]. vm_compute. reflexivity.
Qed.

(** ** C45: the same parser and texts.  Nothing of the earlier documents is seen: what the
    parser shows and tells is made of scalars and keys of the text (and of the default
    value 0 of the declaration). *)
Definition txt (l : list string) : list token := fst (tokenize json_tk (list_ascii_of_string (js (String.concat "" l)))).
Definition from (l : list string) (x : scalar) : Prop := scalar_in (txt l) x \/ x = SInt 0.

Lemma big_defaults (SC : scalar -> Prop) (KY : string -> Prop) : SC (SInt 0) -> defaults_text SC KY big.
Proof.
  intros H.
  constructor; [|intros m c d Hin Hd; repeat (destruct Hin as [Hin|Hin]; [injection Hin as <- <-; discriminate Hd|]); destruct Hin].
  apply Forall_cons; [constructor|]. apply Forall_cons; [constructor; constructor|]. apply Forall_cons.
  - constructor. constructor; [apply Forall_cons; [constructor|apply Forall_cons; [constructor|apply Forall_nil]]|].
    intros m c d [Hin|[Hin|[]]] Hd; injection Hin as <- <-; [discriminate Hd|]. injection Hd as <-. constructor. exact H.
  - apply Forall_cons; [|apply Forall_nil]. constructor; [| |discriminate].
    + apply Forall_cons; [|apply Forall_cons; [|apply Forall_nil]].
      * constructor; [apply Forall_cons; [constructor|apply Forall_nil]|]. intros m c d [Hin|[]] Hd; injection Hin as <- <-; discriminate Hd.
      * constructor; [apply Forall_cons; [constructor|apply Forall_nil]|]. intros m c d [Hin|[]] Hd; injection Hin as <- <-; discriminate Hd.
    + intros m c d [Hin|[Hin|[]]] Hd; injection Hin as <- <-; discriminate Hd.
Qed.

Definition big5 (l : list string) : api json_tk := state_after (document (lift no2) 0 ye (texts l) (0 :: bufs_of l) big3) big3.

Example ex_C45 : Forall (fun l =>
  (forall v, shown (view_of (m_root (a_m (big5 l)))) v -> made (from l) (key_in (txt l)) v) /\
  exists l', past (big5 l) = (past big3 ++ l')%list /\ Forall (told_made (from l) (key_in (txt l))) l') (removelast odd_texts).
Proof.
  destruct big3_history as [Hh Ha].
  assert (K : forall l, In l (removelast odd_texts) -> content (texts l) (0 :: bufs_of l) = Some (list_ascii_of_string (js (String.concat "" l))) /\
    (exists t r, txt l = t :: r /\ opener KObj t = true) /\
    match is_throw (document (lift no2) 0 ye (texts l) (0 :: bufs_of l) big3) with
    | Some _ => True
    | None => match document (lift no2) 0 ye (texts l) (0 :: bufs_of l) big3 with AOk _ => True | _ => False end
    end).
  { intros l Hl. repeat (destruct Hl as [<-|Hl]; [split; [vm_compute; reflexivity|]; split; [|vm_compute; exact I];
      eexists; eexists; split; [vm_compute; reflexivity|reflexivity]|]). destruct Hl. }
  apply Forall_forall. intros l Hl. destruct (K l Hl) as (K1 & K2 & K3).
  refine (@C45_no_leak_json (lift no2) 0 ye true (from l) (key_in (txt l)) big big3 (big5 l) (texts l) 0 (bufs_of l) _
    (lift_same_eyes no2) eq_refl Hh Ha K1 (or_introl eq_refl) K2 _ _ _ _).
  - apply big_defaults. right. reflexivity.
  - intros x Hx. left. exact Hx.
  - intros k Hk. exact Hk.
  - unfold big5. destruct (document (lift no2) 0 ye (texts l) (0 :: bufs_of l) big3) as [c|e c| |u|]; simpl in *; try contradiction; eauto.
Qed.

(** The earlier documents had the scalar -20 and the key p; the last of the texts has not. *)
Example ex_C45_before : In (Ev 2 (OVal (VVec [VSc (SInt 1); VSc (SInt (-20))]))) (past big3) /\
  ~ from ["{'id':3,'list':[null,4],'map':{}}"] (SInt (-20)) /\ ~ key_in (txt ["{'id':3,'list':[null,4],'map':{}}"]) "p".
Proof.
  split; [vm_compute; auto|]. unfold from, scalar_in, key_in. 
  match goal with |- context [txt ?l] => let t := eval vm_compute in (txt l) in change (txt l) with t end.
  split; [intros [H|H]; [repeat (destruct H as [H|H]; [discriminate H|]); destruct H|discriminate H]|].
  intros H; repeat (destruct H as [H|H]; [discriminate H|]); destruct H.
Qed.

(** A chunk at a time, with a failure in between: calls as such. *)
Definition two : schema := SMp true (SArr true int None) (Some 1) None.
Definition two1 := state_after (do_op (lift yes) 0 ye (OpParse (texts ["{'a':[1,2],'b':[3"]) 0) (fresh_parser two)) (fresh_parser two).
Definition two2 := state_after (do_op (lift yes) 0 ye (OpParse (texts [",4],'c':true}"]) 0) two1) two1.

Example ex_C45_calls : exists ts, read_by ye ts two [] 0 two2 /\
  ts = [TMapStart; TKey "a"; TArrStart; TSc (SInt 1); TSc (SInt 2); TArrEnd; TKey "b"; TArrStart;
        TSc (SInt 3); TSc (SInt 4); TArrEnd; TKey "c"; TSc (SBool true); TMapEnd] /\
  (forall pi p v, get pi (m_root (a_m two2)) = Some p -> get_value p = Some v -> made (scalar_in ts) (key_in ts) v) /\
  Forall (told_made (scalar_in ts) (key_in ts)) (past two2) /\
  map (fun e => match e with Ev _ (OElem k w) => (k, v_val w) | _ => ("", None) end) (past two2) =
    [("a", Some (VVec [VSc (SInt 1); VSc (SInt 2)])); ("b", Some (VVec [VSc (SInt 3); VSc (SInt 4)]))].
Proof.
  assert (U0 : read_by ye [] two [] 0 (fresh_parser two)) by constructor.
  assert (K1 : do_op (lift yes) 0 ye (OpParse (texts ["{'a':[1,2],'b':[3"]) 0) (fresh_parser two) = AOk two1) by (apply ok_state; vm_compute; reflexivity).
  assert (K2 : exists x, do_op (lift yes) 0 ye (OpParse (texts [",4],'c':true}"]) 0) two1 = AThrow x two2) by (eexists; apply throw_state; vm_compute; reflexivity).
  pose proof (@rb_call json_tk ye _ _ _ _ _ _ _ _ (@rb_call json_tk ye _ _ _ _ _ _ _ _ U0 (or_introl K1)) (or_intror K2)) as U3.
  eexists. split; [exact U3|].
  match type of U3 with read_by _ ?t _ _ _ _ => let t' := eval vm_compute in t in change t with t' in * end.
  split; [reflexivity|].
  assert (D : forall (SC : scalar -> Prop) (KY : string -> Prop), defaults_text SC KY two) by (intros; constructor; constructor; constructor).
  destruct (@C45_from_text json_tk ye _ two [] 0 two2 U3 (D _ _)) as (H1 & l' & H2 & H3). split; [exact H1|].
  split; [|vm_compute; reflexivity]. rewrite H2. exact H3.
Qed.

(** ** C46: a map of objects, unknown members skipped, read in pieces. *)
Definition feed_of : schema :=
  SMp false (SObj OPlain [(mkM (SStr "id") false None, int); (mkM (SStr "tags") true None, SArr false int None)] true (Some 1)) None None.
Definition f0 := fresh_parser feed_of.
Definition f1 := state_after (do_op (lift yes) 0 ye (OpParse (texts ["{'a':{'id':1,'junk':[[{'x':"]) 0) f0) f0.
Definition f2 := state_after (do_op (lift yes) 0 ye (OpParse (texts ["5}]],'tags':[1,2,3]}}"]) 0) f1) f1.
Definition f3 := state_after (do_op (lift yes) 0 ye (OpFinish (texts ["5}]],'tags':[1,2,3]}}"])) f2) f2.

Lemma f_steps : streamed ye 0 [] feed_of 0 f0 /\
  do_op (lift yes) 0 ye (OpParse (texts ["{'a':{'id':1,'junk':[[{'x':"]) 0) f0 = AOk f1 /\
  do_op (lift yes) 0 ye (OpParse (texts ["5}]],'tags':[1,2,3]}}"]) 0) f1 = AOk f2 /\
  do_op (lift yes) 0 ye (OpFinish (texts ["5}]],'tags':[1,2,3]}}"])) f2 = AOk f3.
Proof.
  split; [constructor|]. split; [apply ok_state; vm_compute; reflexivity|].
  split; apply ok_state; vm_compute; reflexivity.
Qed.

Lemma f_compiles : compiles feed_of.
Proof.
  constructor; constructor; [apply Forall_cons; [constructor|apply Forall_cons; [constructor; constructor|apply Forall_nil]]|];
    apply Forall_cons; [intros d Hd; discriminate Hd|apply Forall_cons; [intros d Hd; discriminate Hd|apply Forall_nil]].
Qed.

Example ex_C46 : compiles feed_of /\ streaming feed_of = true /\ slots feed_of = 3 /\
  exists ts, streamed ye 0 ts feed_of 0 f1 /\ nesting 0 ts = 5 /\ held (m_root (a_m f0)) = 3 /\ held (m_root (a_m f1)) = 6 /\
  streamed ye 0 [] feed_of 0 f3 /\ held (m_root (a_m f3)) <= slots feed_of + 0 + 0 /\ List.length (past f3) = 1.
Proof.
  split; [exact f_compiles|]. split; [reflexivity|]. split; [reflexivity|].
  destruct f_steps as (U0 & K1 & K2 & K3).
  pose proof (@sd_parse json_tk ye _ _ _ _ _ (lift yes) (texts ["{'a':{'id':1,'junk':[[{'x':"]) 0 f1 U0 K1) as U1.
  pose proof (@sd_parse json_tk ye _ _ _ _ _ (lift yes) (texts ["5}]],'tags':[1,2,3]}}"]) 0 f2 U1 K2) as U2.
  pose proof (@sd_finish json_tk ye _ _ _ _ _ (lift yes) (texts ["5}]],'tags':[1,2,3]}}"]) f3 U2 K3) as U3.
  pose proof (@C46_held json_tk ye 0 [] feed_of 0 f3 f_compiles eq_refl U3) as H. cbn [nesting] in H.
  eexists. split; [exact U1|]. split; [vm_compute; reflexivity|]. split; [vm_compute; reflexivity|]. split; [vm_compute; reflexivity|].
  split; [exact U3|]. split; [exact H|vm_compute; reflexivity].
Qed.

(** A class that collects holds more for a longer text. *)
Example ex_C46_collecting : map (fun txt => held (m_root (a_m (state_after (do_op (lift yes) 0 ye (OpParse (texts [txt]) 0)
    (fresh_parser (SArr true int None))) (fresh_parser (SArr true int None)))))) ["[1,"; "[1,2,3,4,"; "[1,2,3,4,5,6,7,8,"] = [2; 5; 9].
Proof. vm_compute. reflexivity. Qed.

(** ** C47: an object of two members with callbacks; the memory runs out at the second key. *)
Definition pair_of : schema :=
  SObj OPlain [(mkM (SStr "a") false None, SVal TyStr (Some 1)); (mkM (SStr "b") false None, SVal TyInt (Some 2))] true (Some 3).
Definition tight : env :=
  mkEnv (fun _ _ _ _ => mkCO [] [] None CTrue) (fun _ => "?") (fun _ => None)
    (fun c _ => match c with COn _ (TKey "b") => Some (FAt 0 (XStd "std::bad_alloc")) | _ => None end).
Definition pair_text : mem := texts ["{'a':'x'"; ",'b':2}"].

Example ex_C47 : content pair_text [0; 1] <> None /\
  same_or_cut tight (document tight 0 ye pair_text [0; 1] (fresh_parser pair_of))
    (document (plenty tight) 0 ye pair_text [0; 1] (fresh_parser pair_of)) /\
  (match document tight 0 ye pair_text [0; 1] (fresh_parser pair_of) with
   | AThrow e a => pe_sj e = "std::bad_alloc" /\ List.length (past a) = 1 /\ a_reset a = true
   | _ => False
   end) /\
  (match document (plenty tight) 0 ye pair_text [0; 1] (fresh_parser pair_of) with
   | AOk a => List.length (past a) = 3
   | _ => False
   end).
Proof.
  assert (Hc : exists bs, content pair_text [0; 1] = Some bs) by (eexists; vm_compute; reflexivity).
  destruct Hc as [bs Hc]. split; [rewrite Hc; discriminate|]. split; [eapply C47_document; exact Hc|].
  split; vm_compute; auto.
Qed.

(** ** C48: a missing member after other documents, in two pieces. *)
Definition pair_bad : mem := texts ["{'a':'x'"; "}"].
Definition pair_used : api json_tk := state_after (document (plenty tight) 0 ye pair_text [0; 1] (fresh_parser pair_of)) (fresh_parser pair_of).

Lemma pair_used_start : at_start pair_used.
Proof. left. vm_compute. reflexivity. Qed.

Example ex_C48 : exists bs e a', content pair_bad [0; 1] = Some bs /\
  document (plenty tight) 0 ye pair_bad [0; 1] pair_used = AThrow e a' /\
  pe_sj e = "Mandatory member b is not present" /\ ruling (plenty tight) bs e a' /\ schema_of (m_root (a_m a')) = pair_of.
Proof.
  assert (Hc : exists bs, content pair_bad [0; 1] = Some bs) by (eexists; vm_compute; reflexivity).
  destruct Hc as [bs Hc].
  assert (Ht : match document (plenty tight) 0 ye pair_bad [0; 1] pair_used with
               | AThrow e _ => pe_sj e = "Mandatory member b is not present" | _ => False end) by (vm_compute; reflexivity).
  assert (Hs : schema_of (m_root (a_m pair_used)) = pair_of) by (vm_compute; reflexivity).
  destruct (document (plenty tight) 0 ye pair_bad [0; 1] pair_used) as [q|e a'| |u|] eqn:Hd; try contradiction.
  exists bs, e, a'. destruct (@C48_cause json_tk (plenty tight) 0 ye pair_bad 0 [1] bs pair_used a' e pair_used_start Hc Hd) as [H1 H2].
  rewrite Hs in H2. auto.
Qed.

(** ** C49: a program whose member callback would throw if it found the object set. *)
Definition wary : env := mkEnv (fun c _ T _ =>
    match T with
    | PObj b _ _ _ _ _ (Some 3) => if Nat.eqb c 1 && b_set b then mkCO [] [] None CThrowOther else mkCO [] [] None CTrue
    | _ => mkCO [] [] None CTrue
    end) (fun _ => "?") (fun _ => None) (e_alloc (plenty tight)).

Lemma wary_due c h T x : due c T x -> e_cb wary c h T x = e_cb (plenty tight) c h T x.
Proof.
  intros H. cbn [e_cb wary plenty tight]. destruct T as [| | |b k v ms ig ign [[|[|[|[|n]]]]|]| |]; auto.
  destruct (Nat.eqb c 1) eqn:Hc; [|reflexivity]. apply Nat.eqb_eq in Hc. subst c.
  assert (K : forall pi p, get pi (PObj b k v ms ig ign (Some 3)) = Some p -> shut pi (PObj b k v ms ig ign (Some 3)) ->
    cb_of p = Some 1 \/ ecb_of p = Some 1 -> b_set b = false).
  { intros [|st pi] p Hg Hs Hp.
    - injection Hg as <-. destruct Hp; discriminate.
    - apply (Hs [] st pi _ eq_refl eq_refl). }
  assert (Hb : b_set b = false).
  { inversion H; subst; eapply K; eauto. }
  rewrite Hb. reflexivity.
Qed.

Example ex_C49 : used ye pair_of [] 0 (fresh_parser pair_of) /\ no_arr_uni pair_of = true /\ at_start (fresh_parser pair_of) /\
  other_callbacks (plenty tight) wary /\
  observe (document wary 0 ye pair_text [0; 1] (fresh_parser pair_of)) = observe (document (plenty tight) 0 ye pair_text [0; 1] (fresh_parser pair_of)) /\
  (* the object is set in the end, when its own callback is invoked *)
  (match document wary 0 ye pair_text [0; 1] (fresh_parser pair_of) with AOk a => is_set (m_root (a_m a)) = true /\ List.length (past a) = 3 | _ => False end) /\
  (* between the two pieces: two parsers are reading or waiting, none of them is set *)
  (match parse_all wary 0 ye (texts ["{'a':'x','b':"]) [0] (fresh_parser pair_of) with
   | AOk a => m_stack (a_m a) = [[Mem 1]; []] /\ veiled true (a_m a)
   | _ => False end).
Proof.
  assert (Hu : used ye pair_of [] 0 (fresh_parser pair_of)) by apply u_new.
  assert (Ha : at_start (fresh_parser pair_of)) by apply at_start_new.
  assert (Hc : exists bs, content pair_text [0; 1] = Some bs) by (eexists; vm_compute; reflexivity). destruct Hc as [bs Hc].
  assert (Hc2 : exists bs, content (texts ["{'a':'x','b':"]) [0] = Some bs) by (eexists; vm_compute; reflexivity). destruct Hc2 as [bs2 Hc2].
  assert (Ho : other_callbacks (plenty tight) wary) by (split; [|split]; reflexivity).
  split; [exact Hu|]. split; [reflexivity|]. split; [exact Ha|]. split; [exact Ho|].
  split; [eapply C49_callbacks_json; [exact Hu|exact Ha|exact Hc|exact Ho|intros; apply wary_due; assumption]|].
  split; [vm_compute; auto|].
  assert (Hst : match parse_all wary 0 ye (texts ["{'a':'x','b':"]) [0] (fresh_parser pair_of) with
                | AOk a => m_stack (a_m a) = [[Mem 1]; []] | _ => False end) by (vm_compute; reflexivity).
  destruct (parse_all wary 0 ye (texts ["{'a':'x','b':"]) [0] (fresh_parser pair_of)) as [q| | | |] eqn:Hp; try contradiction.
  split; [exact Hst|]. exact (proj1 (@C49_between_calls_json ye pair_of [] 0 _ q wary _ 0 [] bs2 Hu eq_refl Ha Hc2 Hp)).
Qed.

(** ** C50: the declaration of every kind of parser, some years later. *)
Definition pair_s2 := SObj OAuto [must "x" int; dflt "y" (VSc (SInt 0)) int; dflt "z" (VSc (SInt 7)) int] false None.
Definition big_later : schema :=
  SObj OPlain
    [must "id" (SVal TyInt (Some 1));
     may "list" (SArr true int (Some 2));
     may "map" (SMp true pair_s2 (Some 3) (Some 4));
     may "kind" (SUni false TyStr ""
        [(mkM (SStr "a") false None, SObj OPlain [may "len" (SVal TyInt (Some 5)); may "width" int] true (Some 6));
         (mkM (SStr "b") true None, SObj OCustom [may "s" text] false (Some 7));
         (mkM (SStr "c") false None, SObj OPlain [must "new" text] false None)] (Some 8));
     may "note" (SArr true text None)]
    true (Some 9).

Lemma same_member c c' auto n o : milder eq auto (mkM (SStr n) o None) (mkM (SStr n) o None) c c'.
Proof. split; [reflexivity|]. split; [auto|]. intros _ _ d H. discriminate H. Qed.

Lemma opt_member c c' auto n o : milder eq auto (mkM (SStr n) false o) (mkM (SStr n) true None) c c'.
Proof. split; [reflexivity|]. split; [auto|]. intros _ H. discriminate H. Qed.

Lemma no_more auto (new : mspec -> Prop) : nmembers ["note"] eq auto new [] [].
Proof. constructor. intros m c []. Qed.

Lemma more m c auto (new : mspec -> Prop) : new m -> nmembers ["note"] eq auto new [] [(m, c)].
Proof. intros H. constructor. intros m' c' [K|[]]. injection K as <- <-. exact H. Qed.

Lemma pair_newer : newer ["note"] eq pair_s pair_s2.
Proof.
  apply nw_object; [auto|]. apply nm_old; [apply same_member|constructor|]. apply nm_old; [|constructor|].
  - split; [reflexivity|]. split; [auto|]. intros _ _ d H. injection H as <-. eexists. split; [reflexivity|]. constructor.
  - apply more. split; [reflexivity|]. split; discriminate.
Qed.

Lemma big_newer : newer ["note"] eq big big_later.
Proof.
  apply nw_object; [auto|].
  apply nm_old; [apply same_member|constructor|].
  apply nm_old; [apply same_member|constructor; constructor|].
  apply nm_old; [apply same_member|constructor; exact pair_newer|].
  apply nm_old; [apply same_member| |].
  - apply nw_union. apply nm_old; [apply same_member| |].
    + apply nw_object; [discriminate|]. apply nm_old; [apply opt_member|constructor|]. apply more. split; [reflexivity|]. split; discriminate.
    + apply nm_old; [apply opt_member| |apply more; exact I].
      apply nw_object; [auto|]. apply nm_old; [apply same_member|constructor|apply no_more].
  - apply more. split; [reflexivity|]. split; [discriminate|]. intros _ n H. injection H as <-. left. reflexivity.
Qed.

Lemma yes_new N : nprog N eq yes yes.
Proof. split; [|reflexivity]. intros. split; [reflexivity|]. split; [reflexivity|exact I]. Qed.

Lemma big_later_reads : reads 0 ye big_later (fresh_parser big_later) (texts big_text) 0 [1] big_json.
Proof. reads_new. Qed.

Example ex_C50 : exists l w l' w',
  outcome_of yes big big_text [1] = Parsed l w /\ outcome_of yes big_later big_text [1] = Parsed l' w' /\
  nlog ["note"] eq l l' /\ nview eq big big_later w w' /\ List.length l = 9 /\
  (* the map, with the default value of the new member in its pairs *)
  option_map v_val (nth_error (v_kids w) 2) =
    Some (Some (VMap [("p", VTup [VSc (SInt 1); VSc (SInt 2)]); ("q", VTup [VSc (SInt 3); VSc (SInt 0)])])) /\
  option_map v_val (nth_error (v_kids w') 2) =
    Some (Some (VMap [("p", VTup [VSc (SInt 1); VSc (SInt 2); VSc (SInt 7)]); ("q", VTup [VSc (SInt 3); VSc (SInt 0); VSc (SInt 7)])])).
Proof.
  assert (H : exists l w, outcome_of yes big big_text [1] = Parsed l w /\ List.length l = 9 /\
    option_map v_val (nth_error (v_kids w) 2) =
      Some (Some (VMap [("p", VTup [VSc (SInt 1); VSc (SInt 2)]); ("q", VTup [VSc (SInt 3); VSc (SInt 0)])]))).
  { eexists. eexists. split; [vm_compute; reflexivity|]. split; vm_compute; reflexivity. }
  destruct H as (l & w & H1 & H2 & H3).
  destruct (@C50_old_documents json_tk json_tk 0 0 ye ye ["note"] eq yes yes big big_later (fresh_parser big) (fresh_parser big_later) (texts big_text) 0 [1]
    (texts big_text) 0 [1] big_json l w big_newer (yes_new _)) as (l' & w' & K1 & K2 & K3).
  - intros k [<-|[]] Hin. vm_compute in Hin. intuition discriminate.
  - constructor.
  - exact big_reads.
  - exact big_later_reads.
  - vm_compute. reflexivity.
  - exact H1.
  - exists l, w, l', w'. split; [exact H1|]. split; [exact K1|]. split; [exact K2|]. split; [exact K3|]. split; [exact H2|]. split; [exact H3|].
    assert (H4 : match outcome_of yes big_later big_text [1] with Parsed _ w => option_map v_val (nth_error (v_kids w) 2) =
      Some (Some (VMap [("p", VTup [VSc (SInt 1); VSc (SInt 2); VSc (SInt 7)]); ("q", VTup [VSc (SInt 3); VSc (SInt 0); VSc (SInt 7)])])) | _ => False end)
      by (vm_compute; reflexivity).
    rewrite K1 in H4. exact H4.
Qed.

(** ** C51: the number of calls for the large example. *)
Definition counted (E : env) (s : schema) (l : list string) (bufs : list nat) : nat * nat * nat :=
  match content (texts l) bufs with
  | Some bs => (List.length bs, List.length (fst (tokenize json_tk bs)),
                total_run E 0 (fst (tokenize json_tk bs)) (mkS (m_root (a_m (fresh_parser s))) [[]] []))
  | None => (0, 0, 0)
  end.

Example ex_C51 :
  used ye big [] 0 (fresh_parser big) /\ at_start (fresh_parser big) /\ content (texts big_text) [0; 1] <> None /\
  levels big = 4 /\ counted (lift yes) big big_text [0; 1] = (105, 37, 121) /\ budget 4 37 = 1228 /\ budget 4 105 = 3472 /\
  match document (lift yes) 0 ye (texts big_text) [0; 1] (fresh_parser big) with
  | AOk a => List.length (past a) = 9
  | _ => False
  end.
Proof.
  split; [apply u_new|]. split; [apply at_start_new|]. split; [vm_compute; discriminate|]. split; [reflexivity|].
  split; [vm_compute; reflexivity|]. split; [reflexivity|]. split; [reflexivity|]. vm_compute. reflexivity.
Qed.

(** ** C52: the program and the text of Readme.md, in two pieces. *)
Definition printer : prog := mkP (fun _ _ _ => mkA [[0]; [2]] None CTrue) (fun _ => "?") (fun _ => None).

Definition readme_text : list string :=
  ["[{ 'string': 'str1', 'integer': 1, 'array': ['1', '2'] }, { 'str"; "ing': 'str2', 'array': ['3', '4'] }]"].

Definition readme_rows : list row := [mkRow "str1" (Some 1%Z) ["1"; "2"]; mkRow "str2" None ["3"; "4"]].

Definition readme_list : list json := map (fun r => JObj (row_members r)) readme_rows.

Lemma readme_reads : reads 0 ye readme (fresh_parser readme) (texts readme_text) 0 [1] (JArr readme_list).
Proof. reads_new. Qed.

Lemma readme_row_json : Forall2 row_json readme_rows readme_list.
Proof.
  constructor; [eexists; split; [reflexivity|apply Permutation_refl]|].
  constructor; [eexists; split; [reflexivity|apply Permutation_refl]|]. constructor.
Qed.

(** The records as documents of their own. *)
Definition row_docs : list (mem * list nat) :=
  [(texts ["{ 'string': 'str1', 'integer': 1, 'array': ['1', '2'] }"], [0]); (texts ["{ 'string': 'str2', 'array'"; ": ['3', '4'] }"], [0; 1])].

Example ex_C52 : Forall2 (text_for json_tk) row_docs (map (fun r => JObj (row_members r)) readme_rows) /\
  (exists a', one_by_one 0 ye printer row_docs (fresh_parser readme_row) = AOk a' /\ List.length (past a') = 2) /\
  (exists ws w, outcome_of printer readme readme_text [1] = Parsed (map (fun v => Ev 0 (OSelf v)) ws) w /\ Forall2 written readme_rows ws).
Proof.
  split; [|split].
  - constructor; [|constructor; [|constructor]]; do 4 eexists; (split; [reflexivity|]); (split; [vm_compute; reflexivity|vm_compute; reflexivity]).
  - assert (K : match one_by_one 0 ye printer row_docs (fresh_parser readme_row) with AOk a' => List.length (past a') = 2 | _ => False end)
      by (vm_compute; reflexivity).
    destruct (one_by_one 0 ye printer row_docs (fresh_parser readme_row)) as [a'|y a'| |u|]; try contradiction. exists a'. split; [reflexivity|exact K].
  - destruct (@C52_readme json_tk 0 ye printer (fresh_parser readme) (texts readme_text) 0 [1] readme_rows readme_list
      readme_reads readme_row_json (fun _ => eq_refl) (fun _ _ => eq_refl)) as (ws & w & H1 & H2).
    change (past (fresh_parser readme)) with (@nil event) in H1. cbn [app] in H1. exists ws, w. split; [exact H1|exact H2].
Qed.

(** ** C53: a program for the first version of a document reads the second. *)
Definition firsts : schema :=
  SArr false
    (SObj OPlain
      [may "a" (SVal TyInt (Some 1));
       may "kind" (SUni true TyStr "" [(mkM (SStr "u") false None, SObj OAuto [must "n" int] true None)] (Some 2))]
      true (Some 3)) (Some 4).
Definition first_text : list string := ["[{'a':1},{'kind':'u','n':2}]"].
Definition second_text : list string := ["[{'v':0,'a':1,'w':[1]},{'z':{},'kind':'u',"; "'m':'x','n':2}]"].
Definition first_json : json :=
  JArr [JObj [("a", JSc (SInt 1))]; JObj [("kind", JSc (SStr "u")); ("n", JSc (SInt 2))]].
Definition second_json : json :=
  JArr [JObj [("v", JSc (SInt 0)); ("a", JSc (SInt 1)); ("w", JArr [JSc (SInt 1)])];
        JObj [("z", JObj []); ("kind", JSc (SStr "u")); ("m", JSc (SStr "x")); ("n", JSc (SInt 2))]].

Lemma second_grown : grown firsts first_json second_json.
Proof.
  apply g_arr. constructor; [|constructor; [|constructor]].
  - apply g_obj; [|discriminate]. apply g_new; [reflexivity|].
    eapply g_member; [reflexivity|reflexivity|apply g_same|]. apply g_new; [reflexivity|]. apply g_nil.
  - apply g_obj; [|discriminate]. apply g_new; [reflexivity|].
    eapply g_embedded; [reflexivity|reflexivity|reflexivity|reflexivity| |discriminate].
    apply g_new; [reflexivity|]. eapply g_member; [reflexivity|reflexivity|apply g_same|]. apply g_nil.
Qed.

Example ex_C53 : exists l w,
  outcome_of yes firsts first_text [] = Parsed l w /\ outcome_of yes firsts second_text [1] = Parsed l w /\
  map ev_id l = [1; 3; 2; 3; 4].
Proof.
  assert (H : outcome_of yes firsts second_text [1] = outcome_of yes firsts first_text []).
  { refine (@C53_new_documents json_tk 0 ye yes firsts (fresh_parser firsts) (texts first_text) 0 [] (texts second_text) 0 [1]
      first_json second_json second_grown ltac:(reads_new) ltac:(reads_new) eq_refl). }
  eexists. eexists. rewrite H. split; [vm_compute; reflexivity|]. split; vm_compute; reflexivity.
Qed.

(** C50: two versions later, the second of which does not store its list. *)
Definition big_last : schema :=
  SObj OPlain
    [must "id" (SVal TyInt (Some 1));
     may "list" (SArr false int (Some 2));
     may "map" (SMp true pair_s2 (Some 3) (Some 4));
     may "kind" (SUni false TyStr ""
        [(mkM (SStr "a") false None, SObj OPlain [may "len" (SVal TyInt (Some 5)); may "width" int] true (Some 6));
         (mkM (SStr "b") true None, SObj OCustom [may "s" text] false (Some 7));
         (mkM (SStr "c") false None, SObj OPlain [must "new" text] false None)] (Some 8));
     may "note" (SArr true text None)]
    true (Some 9).

Ltac lighter_same := repeat first [apply lm_nil | apply lm_cons | apply li_value | apply li_ignore
  | apply li_array; auto | apply li_map; auto | apply li_object; [left; reflexivity|] | apply li_union; auto].

Lemma big_versions : versions ["note"] big big_last.
Proof.
  eapply vs_newer; [exact big_newer|]. eapply vs_lighter; [|apply vs_same].
  unfold big_later, big_last, may, must, dflt, pair_s2, int, text. lighter_same; discriminate.
Qed.

Example ex_C50_versions : exists l w, outcome_of yes big_last big_text [1] = Parsed l w.
Proof.
  assert (H : exists l w, outcome_of yes big big_text [1] = Parsed l w) by (eexists; eexists; vm_compute; reflexivity).
  destruct H as (l & w & H).
  refine (@C50_versions json_tk json_tk 0 0 ye ye ["note"] yes yes big big_last (fresh_parser big) (fresh_parser big_last)
    (texts big_text) 0 [1] (texts big_text) 0 [1] big_json l w big_versions _ yes_agreeable big_reads _ eq_refl H).
  - intros k [<-|[]] Hin. vm_compute in Hin. intuition discriminate.
  - reads_new.
Qed.

(** ** C54: the same members, in any environment, for a supported and an unsupported
    document (a null inside an ignored value), and for one that is rejected. *)
Definition lay1 : list string := ["{'a':2,'b':'x','d':[{},null,100.0]}"].
Definition lay2 : list string := [" {'\u0061'"; " :	2 , 'b': '\u00"; "78', 'd':[ { } ,null,1e2 ] }
"].
Definition lay_json : json :=
  JObj [("a", JSc (SInt 2)); ("b", JSc (SStr "x")); ("d", JArr [JObj []; JNull; JSc (SDouble (Strtod.strtod false 100 0))])].

Lemma lay1_text : json_text (str (js "{'a':2,'b':'x','d':[{},null,100.0]}")) lay_json.
Proof. apply tokenize_json. eexists. vm_compute. reflexivity. Qed.

Lemma lay2_text : json_text (str (js " {'\u0061' :	2 , 'b': '\u0078', 'd':[ { } ,null,1e2 ] }
")) lay_json.
Proof. apply tokenize_json. eexists. vm_compute. reflexivity. Qed.

Example ex_C54 : forall E s,
  result (document E 0 ye (texts lay1) [0] (fresh_parser s)) = result (document E 0 ye (texts lay2) [0; 1; 2] (fresh_parser s)).
Proof.
  intros E s. refine (proj2 (@C54_layout E 0 ye (fresh_parser s) (texts lay1) 0 [] _ (texts lay2) 0 [1; 2] _ lay_json
    (at_start_new _ _ _ _) _ _ lay1_text lay2_text)); vm_compute; reflexivity.
Qed.

Example ex_C54_outcomes :
  supported lay_json obj3_ign = false /\
  (exists m, outcome_of yes obj3_ign lay2 [1; 2] = Failed [] m) /\
  (exists m, outcome_of yes obj3 lay2 [1; 2] = Failed [] m) /\
  (exists m, outcome_of yes int lay2 [1; 2] = Failed [] m).
Proof. split; [vm_compute; reflexivity|]. split; [|split]; eexists; vm_compute; reflexivity. Qed.

Example ex_C54_compact : forall E s,
  result (document E 0 ye (texts lay2) [0; 1; 2] (fresh_parser s)) =
  result (document E 0 ye (fun _ => Some (print lay_json)) [0] (fresh_parser s)).
Proof.
  intros E s. refine (@C54_compact E 0 ye (fresh_parser s) (texts lay2) 0 [1; 2] _ (fun _ => Some (print lay_json)) 0 [] lay_json
    (at_start_new _ _ _ _) _ _ lay2_text _); vm_compute; reflexivity.
Qed.

(** ** C55: the members of all objects and unions declared in the reverse order. *)
Definition pair_rev := SObj OAuto [dflt "y" (VSc (SInt 0)) int; must "x" int] false None.
Definition big_rev : schema :=
  SObj OPlain
    [may "kind" (SUni false TyStr ""
        [(mkM (SStr "b") false None, SObj OCustom [may "s" text] false (Some 7));
         (mkM (SStr "a") false None, SObj OPlain [must "len" (SVal TyInt (Some 5))] false (Some 6))] (Some 8));
     may "map" (SMp true pair_rev (Some 3) (Some 4));
     may "list" (SArr true int (Some 2));
     must "id" (SVal TyInt (Some 1))]
    true (Some 9).

Ltac same_names :=
  intros m c m' c' Hi Hi' E; simpl in Hi, Hi';
  repeat match goal with H : _ \/ _ |- _ => destruct H as [H|H] end; try contradiction;
  repeat match goal with H : _ = (?m, ?c) |- _ => is_var m; is_var c; unfold must, may, dflt in H; injection H as <- <- end;
  try discriminate E; clear E.
Ltac like_all := same_names; (split; [reflexivity|]; simpl; try exact I; constructor).

Lemma pair_reordered : reordered eq pair_s pair_rev.
Proof.
  apply ro_object; [simpl; auto|simpl; auto 10|apply Permutation_rev|like_all|same_names; constructor].
Qed.

Lemma big_reordered : reordered eq big big_rev.
Proof.
  apply ro_object; [simpl; auto 20|simpl; auto 20|apply Permutation_rev|like_all|same_names].
  - apply ro_union; [simpl; auto 20|simpl; auto 20|apply Permutation_rev|like_all|same_names];
      (apply ro_object; [simpl; auto 20|simpl; auto 20|apply Permutation_refl|like_all|same_names; constructor]).
  - constructor. exact pair_reordered.
  - constructor. constructor.
  - constructor.
Qed.

Lemma yes_reordered : rprog eq yes yes.
Proof. split; [|reflexivity]. intros. split; [reflexivity|]. split; [reflexivity|]. split; [reflexivity|exact I]. Qed.

Lemma big_rev_reads : reads 0 ye big_rev (fresh_parser big_rev) (texts big_text) 0 [1] big_json.
Proof. reads_new. Qed.

Example ex_C55 : exists l w l' w',
  outcome_of yes big big_text [1] = Parsed l w /\ outcome_of yes big_rev big_text [1] = Parsed l' w' /\
  rlog eq l l' /\ rview eq big big_rev w w' /\ List.length l = 9 /\
  (* the map: the pairs are in the order of the declaration *)
  option_map v_val (nth_error (v_kids w) 2) =
    Some (Some (VMap [("p", VTup [VSc (SInt 1); VSc (SInt 2)]); ("q", VTup [VSc (SInt 3); VSc (SInt 0)])])) /\
  option_map v_val (nth_error (v_kids w') 1) =
    Some (Some (VMap [("p", VTup [VSc (SInt 2); VSc (SInt 1)]); ("q", VTup [VSc (SInt 0); VSc (SInt 3)])])) /\
  (* the union: the same alternative has the other index *)
  option_map v_cur (nth_error (v_kids w) 3) = Some 0 /\ option_map v_cur (nth_error (v_kids w') 0) = Some 1.
Proof.
  assert (H : exists l w, outcome_of yes big big_text [1] = Parsed l w /\ List.length l = 9 /\
    option_map v_val (nth_error (v_kids w) 2) =
      Some (Some (VMap [("p", VTup [VSc (SInt 1); VSc (SInt 2)]); ("q", VTup [VSc (SInt 3); VSc (SInt 0)])])) /\
    option_map v_cur (nth_error (v_kids w) 3) = Some 0).
  { eexists. eexists. split; [vm_compute; reflexivity|]. split; [|split]; vm_compute; reflexivity. }
  destruct H as (l & w & H1 & H2 & H3 & H4).
  destruct (@C55_reordered json_tk json_tk 0 0 ye ye eq yes yes big big_rev (fresh_parser big) (fresh_parser big_rev) (texts big_text) 0 [1]
    (texts big_text) 0 [1] big_json l w big_reordered yes_reordered) as (l' & w' & K1 & K2 & K3).
  - constructor.
  - exact big_reads.
  - exact big_rev_reads.
  - vm_compute. reflexivity.
  - exact H1.
  - exists l, w, l', w'. split; [exact H1|]. split; [exact K1|]. split; [exact K2|]. split; [exact K3|]. split; [exact H2|]. split; [exact H3|].
    assert (H5 : match outcome_of yes big_rev big_text [1] with Parsed _ w => option_map v_val (nth_error (v_kids w) 1) =
      Some (Some (VMap [("p", VTup [VSc (SInt 2); VSc (SInt 1)]); ("q", VTup [VSc (SInt 0); VSc (SInt 3)])])) /\
      option_map v_cur (nth_error (v_kids w) 0) = Some 1 | _ => False end)
      by (vm_compute; split; reflexivity).
    rewrite K1 in H5. destruct H5 as [H5 H6]. split; [exact H5|]. split; [exact H4|exact H6].
Qed.

(** A document that both reject: a pair without its mandatory member. *)
Definition bad_pair_text : list string := ["{'id':1,'map':{'p':{'y':2}}}"].
Definition bad_pair_json : json := JObj [("id", JSc (SInt 1)); ("map", JObj [("p", JObj [("y", JSc (SInt 2))])])].
Example ex_C55_same_documents :
  (exists m, outcome_of yes big bad_pair_text [] = Failed [Ev 1 (OVal (VSc (SInt 1)))] m) /\
  ~ (exists l w, doc 0 ye yes (texts bad_pair_text) 0 [] (fresh_parser big_rev) = Parsed l w).
Proof.
  split; [eexists; vm_compute; reflexivity|].
  intros K. apply (proj2 (@C55_same_documents json_tk json_tk 0 0 ye ye eq yes yes big big_rev (fresh_parser big) (fresh_parser big_rev)
    (texts bad_pair_text) 0 [] (texts bad_pair_text) 0 [] bad_pair_json big_reordered yes_agreeable yes_agreeable ltac:(reads_new) ltac:(reads_new) eq_refl eq_refl)) in K.
  destruct K as (l & w & K).
  assert (H : outcome_of yes big bad_pair_text [] <> Parsed l w) by (vm_compute; discriminate). exact (H K).
Qed.

(** ** C56: an object and its members, on their own. *)
Definition one_obj : schema := SObj OPlain [must "list" (SArr true int (Some 2))] false (Some 9).
Definition one_text : list string := ["{'list':[1,null,-20]}"].
Definition list_text : list string := [" [1, null"; " , -20 ]"].
Definition list_json : json := JArr [JSc (SInt 1); JNull; JSc (SInt (-20))].

Example ex_C56_one_member :
  outcome_of yes (SArr true int (Some 2)) list_text [1] =
    Parsed [Ev 2 (OVal (VVec [VSc (SInt 1); VSc (SInt (-20))]))] (View true false (Some (VVec [VSc (SInt 1); VSc (SInt (-20))])) 0 []) /\
  outcome_of yes one_obj one_text [] =
    let o := View true false None 0 [View true false (Some (VVec [VSc (SInt 1); VSc (SInt (-20))])) 0 []] in
    Parsed [Ev 2 (OVal (VVec [VSc (SInt 1); VSc (SInt (-20))])); Ev 9 (OSelf o)] o.
Proof.
  assert (H : outcome_of yes (SArr true int (Some 2)) list_text [1] =
    Parsed [Ev 2 (OVal (VVec [VSc (SInt 1); VSc (SInt (-20))]))] (View true false (Some (VVec [VSc (SInt 1); VSc (SInt (-20))])) 0 []))
    by (vm_compute; reflexivity).
  split; [exact H|].
  refine (@C56_one_member json_tk json_tk 0 0 ye ye yes "list" (mkM (SStr "list") false None) (SArr true int (Some 2)) (Some 9)
    (fresh_parser one_obj) (texts one_text) 0 [] (fresh_parser (SArr true int (Some 2))) (texts list_text) 0 [1] list_json _ _
    _ eq_refl eq_refl eq_refl _ eq_refl H eq_refl); reads_new.
Qed.

(** The large example: a number, a list, a map, an ignored member, and an embedded union
    with the rest of the object; every part is parsed, 8 callbacks. *)
Example ex_C56_object : exists l ks,
  parts json_tk 0 ye yes [must "id" (SVal TyInt (Some 1));
     may "list" (SArr true int (Some 2));
     may "map" (SMp true pair_s (Some 3) (Some 4));
     may "kind" (SUni false TyStr ""
        [(mkM (SStr "a") false None, SObj OPlain [must "len" (SVal TyInt (Some 5))] false (Some 6));
         (mkM (SStr "b") false None, SObj OCustom [may "s" text] false (Some 7))] (Some 8))] true
    [("id", JSc (SInt 1)); ("list", JArr [JSc (SInt 1); JNull; JSc (SInt (-20))]);
        ("map", JObj [("p", JObj [("x", JSc (SInt 1)); ("y", JSc (SInt 2))]); ("q", JObj [("x", JSc (SInt 3))])]);
        ("extra", JObj [("a", JArr [JObj []])]);
        ("kind", JSc (SStr "a")); ("len", JSc (SInt 5))] (fresh_kids big) [] l (inr ks) /\
  List.length l = 8 /\ outcome_of yes big big_text [1] = Parsed (l ++ [Ev 9 (OSelf (View true false None 0 ks))])%list (View true false None 0 ks).
Proof.
  match goal with |- exists l ks, parts _ _ _ _ ?ms ?i ?ps ?k ?l0 _ _ /\ _ =>
    destruct (@C56_always 0 ye yes ms i ps) with (ks := k) (l := l0) as (l & r & H) end.
  - vm_compute. reflexivity.
  - vm_compute. reflexivity.
  - intros m st t us ucb Hin um uc Hin'. simpl in Hin. repeat (destruct Hin as [Hin|Hin]; [try discriminate Hin|]); try contradiction.
    unfold may in Hin. injection Hin as <- <- <- <- <-. simpl in Hin'. repeat (destruct Hin' as [Hin'|Hin']; [injection Hin' as <- <-; reflexivity|]). contradiction.
  - pose proof (@C56_object json_tk json_tk 0 0 ye ye yes OPlain _ true (Some 9) (fresh_parser big) (texts big_text) 0 [1] _ l r
      big_reads big_supported ltac:(discriminate) H) as K.
    assert (G : exists l1 ks1, doc 0 ye yes (texts big_text) 0 [1] (fresh_parser big) = Parsed l1 (View true false None 0 ks1) /\ List.length l1 = 9)
      by (eexists; eexists; split; vm_compute; reflexivity).
    destruct G as (l1 & ks1 & G1 & G2). rewrite G1 in K. destruct r as [e|ks]; [discriminate K|]. exists l, ks. split; [exact H|].
    unfold end_object in K. match type of K with context [missing ?m ks] => destruct (missing m ks) end; [discriminate K|].
    cbn [invoke p_cb yes a_res expected pops a_pops fold_left] in K. injection K as K1 K2. subst l1 ks1. split.
    + rewrite app_length in G2. simpl in G2. lia.
    + exact G1.
Qed.

(** A union on its own, and its alternative. *)
Definition kinds : list (mspec * schema) :=
  [(mkM (SStr "a") false None, SObj OPlain [must "len" (SVal TyInt (Some 5))] false (Some 6));
   (mkM (SStr "b") false None, SObj OCustom [may "s" text] false (Some 7))].
Example ex_C56_union : exists l w,
  outcome_of yes (SObj OPlain [must "len" (SVal TyInt (Some 5))] false (Some 6)) ["{'len':5}"] [] = Parsed l w /\
  outcome_of yes (SUni false TyStr "type" kinds (Some 8)) ["{'type':'a','len':5}"] [] =
    (let u := View true false None 0 [w; fresh (SObj OCustom [may "s" text] false (Some 7))] in Parsed (l ++ [Ev 8 (OSelf u)])%list u).
Proof.
  assert (G : exists l w, doc 0 ye yes (texts ["{'len':5}"]) 0 [] (fresh_parser (SObj OPlain [must "len" (SVal TyInt (Some 5))] false (Some 6))) = Parsed l w /\ v_set w = true)
    by (eexists; eexists; split; vm_compute; reflexivity).
  destruct G as (l & w & G & Hw). exists l, w. split; [exact G|].
  refine (eq_trans (@C56_union json_tk json_tk 0 0 ye ye yes false "type" kinds (Some 8) 0 (mkM (SStr "a") false None) (SObj OPlain [must "len" (SVal TyInt (Some 5))] false (Some 6))
    (SStr "a") (fresh_parser (SUni false TyStr "type" kinds (Some 8))) (texts ["{'type':'a','len':5}"]) 0 [] [("len", JSc (SInt 5))] (Parsed l w)
    _ eq_refl ltac:(discriminate) eq_refl eq_refl eq_refl _) _).
  - reads_new.
  - exists (fresh_parser (SObj OPlain [must "len" (SVal TyInt (Some 5))] false (Some 6))), (texts ["{'len':5}"]), 0, []. split; [reads_new|]. split; [reflexivity|exact G].
  - cbv beta iota. unfold end_union. rewrite Hw. cbn [orb]. reflexivity.
Qed.

(** C31: an object that was moved from is assigned to and used again (std::swap). *)
Example ex_C31_revived : exists m o tb ms,
  program false m /\ m 2 = Some (true, o) /\ (exists o', m 3 = Some (false, o')) /\ tables_of o = Some (tb, ms) /\
  find_key (SStr "a") (t_map tb) = Some (2, [0]) /\ find_key (SStr "b") (t_map tb) = None.
Proof.
  set (m0 := mem_set (fun _ => None) 0 (true, o_val)).
  assert (P0 : program false m0).
  { eapply pr_step; [apply pr_start|]. eapply p_make; [reflexivity|constructor|reflexivity]. }
  set (m1 := mem_set (mem_set m0 0 (false, o_val)) 1 (true, o_arr)).
  assert (P1 : program false m1).
  { eapply pr_step; [exact P0|]. eapply p_make; [reflexivity| |reflexivity].
    eapply make_arr with (x := AMove 0) (e := Own o_val). apply (@take_move m0 (1, [0]) 0 o_val). reflexivity. }
  set (m2 := mem_set (mem_set m1 1 (false, o_arr)) 2 (true, o_obj)).
  assert (P2 : program false m2).
  { eapply pr_step; [exact P1|]. eapply p_make; [reflexivity| |reflexivity].
    eapply make_obj with (xs := [(m_a, AMove 1)]) (rd := nowhere); [|reflexivity|reflexivity].
    econstructor; [constructor|]. apply (@take_move m1 (2, [0]) 1 o_arr). reflexivity. }
  set (m3 := mem_set (mem_set m2 2 (false, o_obj)) 3 (true, move (3, []) o_obj)).
  assert (P3 : program false m3) by (eapply pr_step; [exact P2|]; apply p_move; reflexivity).
  destruct (assign (2, []) o_obj (move (3, []) o_obj)) as [y|] eqn:Hy; [|discriminate Hy].
  assert (P4 : program false (mem_set (mem_set m3 3 (false, move (3, []) o_obj)) 2 (true, y))).
  { eapply pr_step; [exact P3|]. exact (@p_assign false m3 2 [] false o_obj o_obj 3 (move (3, []) o_obj) y ltac:(discriminate) eq_refl eq_refl eq_refl Hy). }
  vm_compute in Hy. injection Hy as <-.
  do 4 eexists. split; [exact P4|]. split; [reflexivity|]. split; [eexists; reflexivity|]. split; [reflexivity|].
  split; [exact (@C31_lookup false _ 2 _ [] _ _ _ (SStr "a") P4 eq_refl eq_refl eq_refl)|exact (@C31_lookup false _ 2 _ [] _ _ _ (SStr "b") P4 eq_refl eq_refl eq_refl)].
Qed.

(** C56: an array and a map, each element parsed by a Parser of its own. *)
Definition num := SVal TyInt (Some 5).
Example ex_C56_array : let vs := [VSc (SInt 1); VSc (SInt 2)] in
  outcome_of yes num ["1"] [] = Parsed [Ev 5 (OVal (VSc (SInt 1)))] (View true false (Some (VSc (SInt 1))) 0 []) /\
  outcome_of yes (SArr true num (Some 6)) ["[1,null,2]"] [] =
    Parsed [Ev 5 (OVal (VSc (SInt 1))); Ev 5 (OVal (VSc (SInt 2))); Ev 6 (OVal (VVec vs))] (View true false (Some (VVec vs)) 0 []).
Proof.
  assert (G : outcome_of yes num ["1"] [] = Parsed [Ev 5 (OVal (VSc (SInt 1)))] (View true false (Some (VSc (SInt 1))) 0 [])) by (vm_compute; reflexivity).
  split; [exact G|].
  refine (eq_trans (@C56_array json_tk json_tk 0 0 ye ye yes true num (Some 6) (fresh_parser (SArr true num (Some 6))) (texts ["[1,null,2]"]) 0 []
    [JSc (SInt 1); JNull; JSc (SInt 2)] false [Ev 5 (OVal (VSc (SInt 1))); Ev 5 (OVal (VSc (SInt 2)))] (inr [VSc (SInt 1); VSc (SInt 2)]) _ eq_refl _) _).
  - reads_new.
  - eapply (@el_kept json_tk 0 ye yes true num) with (w := View true false (Some (VSc (SInt 1))) 0 []); [discriminate|reflexivity| |reflexivity|reflexivity|].
    + exists (fresh_parser num), (texts ["1"]), 0, []. split; [reads_new|]. split; [reflexivity|exact G].
    + apply el_null. eapply (@el_kept json_tk 0 ye yes true num) with (w := View true false (Some (VSc (SInt 2))) 0 []); [discriminate|reflexivity| |reflexivity|reflexivity|apply el_end].
      exists (start json_tk 0 (mk num) [Ev 5 (OVal (VSc (SInt 1)))]), (texts ["2"]), 0, []. split; [reads_new|]. split; [reflexivity|].
      vm_compute. reflexivity.
  - reflexivity.
Qed.

Example ex_C56_map : exists l vs,
  entries json_tk 0 ye yes true pair_s (Some 3)
    [("p", JObj [("x", JSc (SInt 1)); ("y", JSc (SInt 2))]); ("q", JObj [("x", JSc (SInt 3))])] [] [] l (inr vs) /\
  List.length vs = 2 /\ List.length l >= 2 /\
  outcome_of yes (SMp true pair_s (Some 3) (Some 4)) ["{'p':{'x':1,'y':2},'q':{'x':3}}"] [] =
    (let o := View true false (Some (VMap vs)) 0 [] in Parsed (l ++ [Ev 4 (OSelf o)])%list o).
Proof.
  match goal with |- exists l vs, entries _ _ _ _ ?st ?e ?c ?ps _ _ _ _ /\ _ =>
    destruct (@C56_map_always 0 ye yes st e c ps) with (vs := @nil (string * value)) (l := @nil event) as (l & r & H);
    [vm_compute; reflexivity|vm_compute; reflexivity|discriminate|];
    pose proof (@C56_map json_tk json_tk 0 0 ye ye yes st e c (Some 4) (fresh_parser (SMp st e c (Some 4)))
      (texts ["{'p':{'x':1,'y':2},'q':{'x':3}}"]) 0 [] ps l r ltac:(reads_new) ltac:(vm_compute; reflexivity) H) as K end.
  assert (G : exists l1 m1, doc 0 ye yes (texts ["{'p':{'x':1,'y':2},'q':{'x':3}}"]) 0 [] (fresh_parser (SMp true pair_s (Some 3) (Some 4))) =
    Parsed l1 (View true false (Some (VMap m1)) 0 []) /\ List.length l1 >= 3 /\ List.length m1 = 2)
    by (eexists; eexists; split; [vm_compute; reflexivity|split; [vm_compute; repeat apply le_n_S; apply Nat.le_0_l|reflexivity]]).
  destruct G as (l1 & m1 & G & Gl & Gm). destruct r as [x|vs]; [rewrite G in K; discriminate K|].
  exists l, vs. unfold end_map in K. cbn [invoke p_cb yes a_res expected pops a_pops fold_left] in K.
  rewrite G in K. injection K as K1 K2. split; [exact H|]. split; [rewrite <- K2; exact Gm|]. split.
  - rewrite K1, app_length in Gl. cbn [List.length] in Gl. rewrite Nat.add_comm in Gl. apply le_S_n. exact Gl.
  - cbn zeta. rewrite <- K2 in *. rewrite K1 in G. exact G.
Qed.

(** C57: an object with a member that is missing; with a default value and without one. *)
Definition c57_ms (d : option value) : list (mspec * schema) := [(mkM (SStr "a") true d, int); must "b" text].
Lemma keeps_ok o o' (k : view -> list event -> outcome -> Prop) (lk : view -> Prop) l w :
  keeps_record o o' k lk -> o = Parsed l w -> v_set w = true -> k w l o' \/ lk w.
Proof. intros H -> Hw. unfold keeps_record in H. rewrite Hw in H. destruct H as [H|[H _]]; auto. Qed.

Example ex_C57_auto_object : let w := View true false None 0 [fresh int; View true false (Some (VSc (SStr "x"))) 0 []] in
  outcome_of yes (SObj OPlain (c57_ms (Some (VSc (SInt 7)))) false None) ["{'b':'x'}"] [] = Parsed [] w /\
  outcome_of yes (SObj OAuto (c57_ms (Some (VSc (SInt 7)))) false (Some 3)) ["{'b':'x'}"] [] =
    Parsed [Ev 3 (OVal (VTup [VSc (SInt 7); VSc (SStr "x")]))] (View true false (Some (VTup [VSc (SInt 7); VSc (SStr "x")])) 0 (map popped (v_kids w))).
Proof.
  cbv zeta. cbn [v_kids map]. set (w := View true false None 0 [fresh int; View true false (Some (VSc (SStr "x"))) 0 []]). assert (G : outcome_of yes (SObj OPlain (c57_ms (Some (VSc (SInt 7)))) false None) ["{'b':'x'}"] [] = Parsed [] w) by (vm_compute; reflexivity).
  split; [exact G|].
  pose proof (@C57_auto_object json_tk json_tk 0 0 ye ye yes (c57_ms (Some (VSc (SInt 7)))) false (Some 3)
    (fresh_parser (SObj OPlain (c57_ms (Some (VSc (SInt 7)))) false None)) (fresh_parser (SObj OAuto (c57_ms (Some (VSc (SInt 7)))) false (Some 3)))
    (texts ["{'b':'x'}"]) 0 [] (texts ["{'b':'x'}"]) 0 [] (JObj [("b", JSc (SStr "x"))]) ltac:(reads_new) ltac:(reads_new) eq_refl eq_refl) as K.
  destruct (@keeps_ok _ _ _ _ _ _ K G eq_refl) as [(vs & (H1 & H2 & H3) & K')|(i & m & c & x & H1 & H2 & H3)]; clear K.
  - destruct vs as [|v1 [|v2 [|v3 vs]]]; try discriminate H2.
    pose proof (H3 0 _ _ _ _ eq_refl eq_refl eq_refl) as F1. pose proof (H3 1 _ _ _ _ eq_refl eq_refl eq_refl) as F2.
    inversion F1 as [v F11 F12|v F11 F12 F13]; [discriminate F11|]. inversion F2 as [u F21 F22|u F21 F22 F23]; [|discriminate F21].
    injection F13 as <-. injection F22 as <-. refine (eq_trans K' _). reflexivity.
  - exfalso. destruct i as [|[|i]]; [| |destruct i; discriminate H1]; injection H1 as <- <-; injection H2 as <-.
    + apply (H3 (VSc (SInt 7))); [apply fd_default; reflexivity|reflexivity].
    + apply (H3 (VSc (SStr "x"))); [apply fd_value; reflexivity|reflexivity].
Qed.

(** Without a default value the Object accepts the document and the SAutoObject throws. *)
Example ex_C57_nothing_to_keep :
  (exists w, outcome_of yes (SObj OPlain (c57_ms None) false None) ["{'b':'x'}"] [] = Parsed [] w /\ v_set w = true) /\
  nothing_to_keep yes (mkM (SStr "a") true None) (fresh int) /\
  outcome_of yes (SObj OAuto (c57_ms None) false (Some 3)) ["{'b':'x'}"] [] =
    Failed [] "Can not set value: Optional member a does not have a default value".
Proof.
  split; [eexists; split; vm_compute; reflexivity|]. split; [|vm_compute; reflexivity].
  intros v H. inversion H; discriminate.
Qed.

Definition c57_kinds (d : option value) : list (mspec * schema) :=
  [(mkM (SStr "a") false None, SObj OAuto [must "len" (SVal TyInt (Some 5))] false (Some 6));
   (mkM (SStr "b") true d, SObj OAuto [may "s" text] false (Some 7))].
(** The alternative b is empty: the Union has no value for it, the SUnion its default value. *)
Example ex_C57_union : let dv := VTup [VSc (SStr "none")] in exists w,
  outcome_of yes (SUni false TyStr "type" (c57_kinds (Some dv)) None) ["{'type':'b'}"] [] = Parsed [] w /\ v_cur w = 1 /\
  exists w', outcome_of yes (SUni true TyStr "type" (c57_kinds (Some dv)) (Some 8)) ["{'type':'b'}"] [] = Parsed [Ev 8 (OVal (VVar 1 dv))] w' /\
  v_val w' = Some (VVar 1 dv).
Proof.
  intros dv.
  assert (G : exists w, doc 0 ye yes (texts ["{'type':'b'}"]) 0 [] (fresh_parser (SUni false TyStr "type" (c57_kinds (Some dv)) None)) = Parsed [] w /\
    v_set w = true /\ v_cur w = 1 /\ nth_error (v_kids w) 1 = Some (fresh (SObj OAuto [may "s" text] false (Some 7))))
    by (eexists; split; [vm_compute; reflexivity|split; [reflexivity|split; reflexivity]]).
  destruct G as (w & G & Gs & Gc & Gk). exists w. split; [exact G|]. split; [exact Gc|].
  pose proof (@C57_union json_tk json_tk 0 0 ye ye yes TyStr "type" (c57_kinds (Some dv)) (Some 8)
    (fresh_parser (SUni false TyStr "type" (c57_kinds (Some dv)) None)) (fresh_parser (SUni true TyStr "type" (c57_kinds (Some dv)) (Some 8)))
    (texts ["{'type':'b'}"]) 0 [] (texts ["{'type':'b'}"]) 0 [] (JObj [("type", JSc (SStr "b"))]) ltac:(reads_new) ltac:(reads_new) eq_refl ltac:(discriminate) eq_refl) as K.
  destruct (@keeps_ok _ _ _ _ _ _ K G Gs) as [(m & c & x & v & H1 & H2 & H3 & K')|(m & c & x & H1 & H2 & H3)]; clear K;
    rewrite Gc in *; rewrite Gk in H2; injection H1 as <- <-; injection H2 as <-.
  - inversion H3 as [u F1 F2|u F1 F2 F3]; [discriminate F1|]. injection F3 as <-. eexists. split; [refine (eq_trans K' _); reflexivity|]. reflexivity.
  - exfalso. apply (H3 dv); [apply fd_default; reflexivity|reflexivity].
Qed.

(** An SCustomObject where the Object is set. *)
Example ex_C57_custom_object : let w := View true false None 0 [fresh int; View true false (Some (VSc (SStr "x"))) 0 []] in
  outcome_of yes (SObj OPlain (c57_ms None) false None) ["{'b':'x'}"] [] = Parsed [] w /\
  outcome_of yes (SObj OCustom (c57_ms None) false (Some 3)) ["{'b':'x'}"] [] =
    (let o v := View true false (Some v) 0 (v_kids w) in
     Parsed [Ev 3 (OCust (o (VCust None)) (VCust None))] (o (VCust (a_new (p_cb yes 3 [] (OCust (o (VCust None)) (VCust None))))))).
Proof.
  cbv zeta. cbn [v_kids]. set (w := View true false None 0 [fresh int; View true false (Some (VSc (SStr "x"))) 0 []]). assert (G : outcome_of yes (SObj OPlain (c57_ms None) false None) ["{'b':'x'}"] [] = Parsed [] w) by (vm_compute; reflexivity).
  split; [exact G|].
  pose proof (@C57_custom_object json_tk json_tk 0 0 ye ye yes (c57_ms None) false (Some 3)
    (fresh_parser (SObj OPlain (c57_ms None) false None)) (fresh_parser (SObj OCustom (c57_ms None) false (Some 3)))
    (texts ["{'b':'x'}"]) 0 [] (texts ["{'b':'x'}"]) 0 [] (JObj [("b", JSc (SStr "x"))]) ltac:(reads_new) ltac:(reads_new) eq_refl eq_refl) as K.
  revert K G. generalize (outcome_of yes (SObj OPlain (c57_ms None) false None) ["{'b':'x'}"] []). intros o K ->.
  cbv beta iota zeta delta [v_set w] in K. refine (eq_trans K _). reflexivity.
Qed.
