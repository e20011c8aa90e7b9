(** An incremental JSON tokenizer, and that it reads back every printed document.

    yajl is not part of the repository; the theorems are about every tokenizer of the
    shape of [Api.tokenizer].  This file gives one for JSON text, to show that the
    hypotheses of the theorems ([reads]) can be met by every document, in any chunks,
    and to write examples as JSON text.  Like yajl (as called by the library, without
    options) it has no comments, rejects integers out of the range of int64_t and numbers
    whose double is infinite, takes a number for an integer exactly if it has neither
    fraction nor exponent, and checks the pattern of lead and continuation bytes of
    UTF-8 in strings.  It differs from yajl in rejecting \u escapes that are half of a
    surrogate pair. *)

From Verif Require Import Spec Model Infra Total Safe Refine Main Api ApiProofs History ApiFacts Outcome.
From Verif Require Import Strtod.
From Coq Require Import NArith Nnat SpecFloat.
Local Open Scope string_scope.
Set Implicit Arguments.

(** ** The tokenizer *)
Inductive ctx := CArr | CObj.

(** What may come next. *)
Inductive expect := EVal | EValOrEnd | EKeyOrEnd | EKey | EColon | ESep | EDone.

(** Inside a number: the digits so far as an integer [n], [k] of them after the point. *)
Inductive num :=
| NMinus
| NZero (neg : bool)
| NInt (neg : bool) (n : N)
| NDot (neg : bool) (n : N)                                  (* after the point *)
| NFrac (neg : bool) (n k : N)
| NExp (neg : bool) (n k : N)                                (* after the e *)
| NSign (neg : bool) (n k : N) (eneg : bool)                 (* after the sign of the exponent *)
| NPow (neg : bool) (n k : N) (eneg : bool) (x : N).

(** Inside a string. *)
Inductive chars :=
| CUtf (k : nat)                                             (* [k] continuation bytes to come *)
| CEsc                                                       (* after a backslash *)
| CHex (hi : option N) (todo : nat) (n : N)                  (* after \u; [hi]: first half of a pair *)
| CHalf (hi : N)                                             (* after the first half of a pair *)
| CHalf2 (hi : N).                                           (* and a backslash *)

(** Inside a token. *)
Inductive lex :=
| LNone
| LWord (rest : list ascii) (t : token)
| LNum (x : num)
| LStr (key : bool) (acc : list ascii) (x : chars).          (* bytes so far, last one first *)

Record jst := J { j_ctx : list ctx; j_exp : expect; j_lex : lex }.

Definition code (c : ascii) : N := N_of_ascii c.

Inductive cls :=
| KWs | KLB | KRB | KLC | KRC | KComma | KColon | KQuote | KMinus | KDigit (d : N) | Kn | Kt | Kf
| KDot | KPlus | Ke | KOther.

Definition cls_of (c : ascii) : cls :=
  let n := code c in
  if (n =? 32)%N || (n =? 10)%N || (n =? 13)%N || (n =? 9)%N then KWs
  else if (n =? 91)%N then KLB
  else if (n =? 93)%N then KRB
  else if (n =? 123)%N then KLC
  else if (n =? 125)%N then KRC
  else if (n =? 44)%N then KComma
  else if (n =? 58)%N then KColon
  else if (n =? 34)%N then KQuote
  else if (n =? 45)%N then KMinus
  else if ((48 <=? n) && (n <=? 57))%N then KDigit (n - 48)
  else if (n =? 110)%N then Kn
  else if (n =? 116)%N then Kt
  else if (n =? 102)%N then Kf
  else if (n =? 46)%N then KDot
  else if (n =? 43)%N then KPlus
  else if (n =? 101)%N || (n =? 69)%N then Ke
  else KOther.

(** After a value. *)
Definition ended (c : list ctx) : jst := J c (match c with [] => EDone | _ => ESep end) LNone.

Definition fail : list token * option jst := ([], None).
Definition go (st : jst) : list token * option jst := ([], Some st).
Definition emit (t : token) (st : jst) : list token * option jst := ([t], Some st).

(** A byte outside of any token. *)
Definition plain (c : list ctx) (e : expect) (b : ascii) : list token * option jst :=
  let value (r : list token * option jst) := match e with EVal | EValOrEnd => r | _ => fail end in
  match cls_of b with
  | KWs => go (J c e LNone)
  | KLB => value (emit TArrStart (J (CArr :: c) EValOrEnd LNone))
  | KLC => value (emit TMapStart (J (CObj :: c) EKeyOrEnd LNone))
  | KRB => match c, e with CArr :: r, (EValOrEnd | ESep) => emit TArrEnd (ended r) | _, _ => fail end
  | KRC => match c, e with CObj :: r, (EKeyOrEnd | ESep) => emit TMapEnd (ended r) | _, _ => fail end
  | KComma =>
      match c, e with
      | CArr :: _, ESep => go (J c EVal LNone)
      | CObj :: _, ESep => go (J c EKey LNone)
      | _, _ => fail
      end
  | KColon => match e with EColon => go (J c EVal LNone) | _ => fail end
  | KQuote =>
      match e with
      | EVal | EValOrEnd => go (J c e (LStr false [] (CUtf 0)))
      | EKey | EKeyOrEnd => go (J c e (LStr true [] (CUtf 0)))
      | _ => fail
      end
  | KMinus => value (go (J c e (LNum NMinus)))
  | KDigit d => value (go (J c e (LNum (if (d =? 0)%N then NZero false else NInt false d))))
  | Kn => value (go (J c e (LWord (list_ascii_of_string "ull") TNull)))
  | Kt => value (go (J c e (LWord (list_ascii_of_string "rue") (TSc (SBool true)))))
  | Kf => value (go (J c e (LWord (list_ascii_of_string "alse") (TSc (SBool false)))))
  | _ => fail
  end.

(** The integer read, if it is an int64_t. *)
Definition int_of (neg : bool) (n : N) : option Z :=
  let z := if neg then Z.opp (Z.of_N n) else Z.of_N n in
  if ((- 9223372036854775808 <=? z) && (z <=? 9223372036854775807))%Z then Some z else None.

Definition end_int (neg : bool) (n : N) : option token := option_map (fun z => TSc (SInt z)) (int_of neg n).

(** The double nearest to the number read, if it is finite. *)
Definition end_double (neg : bool) (n k : N) (e : Z) : option token :=
  let f := strtod neg n (e - Z.of_N k) in
  if finite f then Some (TSc (SDouble f)) else None.

(** The end of a number: its token. *)
Definition num_end (x : num) : option token :=
  match x with
  | NZero neg => end_int neg 0
  | NInt neg n => end_int neg n
  | NFrac neg n k => end_double neg n k 0
  | NPow neg n k eneg x => end_double neg n k (cond_Zopp eneg (Z.of_N x))
  | _ => None
  end.

(** A byte that belongs to the number. *)
Definition num_step (x : num) (b : ascii) : option num :=
  match x, cls_of b with
  | NMinus, KDigit d => Some (if (d =? 0)%N then NZero true else NInt true d)
  | NInt neg n, KDigit d => Some (NInt neg (10 * n + d))
  | NZero neg, KDot => Some (NDot neg 0)
  | NInt neg n, KDot => Some (NDot neg n)
  | NDot neg n, KDigit d => Some (NFrac neg (10 * n + d) 1)
  | NFrac neg n k, KDigit d => Some (NFrac neg (10 * n + d) (k + 1))
  | NZero neg, Ke => Some (NExp neg 0 0)
  | NInt neg n, Ke => Some (NExp neg n 0)
  | NFrac neg n k, Ke => Some (NExp neg n k)
  | NExp neg n k, KPlus => Some (NSign neg n k false)
  | NExp neg n k, KMinus => Some (NSign neg n k true)
  | NExp neg n k, KDigit d => Some (NPow neg n k false d)
  | NSign neg n k eneg, KDigit d => Some (NPow neg n k eneg d)
  | NPow neg n k eneg x, KDigit d => Some (NPow neg n k eneg (10 * x + d))
  | _, _ => None
  end.

Definition andplain (t : option token) (c : list ctx) (b : ascii) : list token * option jst :=
  match t with
  | None => fail
  | Some t => let (ts, r) := plain c (j_exp (ended c)) b in (t :: ts, r)
  end.

Definition hex (c : ascii) : option N :=
  let n := code c in
  if ((48 <=? n) && (n <=? 57))%N then Some (n - 48)%N
  else if ((97 <=? n) && (n <=? 102))%N then Some (n - 87)%N
  else if ((65 <=? n) && (n <=? 70))%N then Some (n - 55)%N
  else None.

(** The escapes of one character. *)
Definition escape (c : ascii) : option ascii :=
  let n := code c in
  if (n =? 34)%N || (n =? 92)%N || (n =? 47)%N then Some c
  else if (n =? 98)%N then Some (ascii_of_N 8)
  else if (n =? 102)%N then Some (ascii_of_N 12)
  else if (n =? 110)%N then Some (ascii_of_N 10)
  else if (n =? 114)%N then Some (ascii_of_N 13)
  else if (n =? 116)%N then Some (ascii_of_N 9)
  else None.

Definition text_of (acc : list ascii) : string := string_of_list_ascii (rev acc).

Definition end_str (c : list ctx) (key : bool) (acc : list ascii) : list token * option jst :=
  if key then emit (TKey (text_of acc)) (J c EColon LNone)
  else emit (TSc (SStr (text_of acc))) (ended c).

(** The bytes of a code point, last one first. *)
Definition utf8_rev (n : N) : list ascii :=
  if (n <? 128)%N then [ascii_of_N n]
  else if (n <? 2048)%N then [ascii_of_N (128 + n mod 64); ascii_of_N (192 + n / 64)]
  else if (n <? 65536)%N then
    [ascii_of_N (128 + n mod 64); ascii_of_N (128 + (n / 64) mod 64); ascii_of_N (224 + n / 4096)]
  else [ascii_of_N (128 + n mod 64); ascii_of_N (128 + (n / 64) mod 64);
        ascii_of_N (128 + (n / 4096) mod 64); ascii_of_N (240 + n / 262144)].

(** The number of continuation bytes after a first byte that needs no escape. *)
Definition lead (b : ascii) : option nat :=
  let n := code b in
  if (n <? 128)%N then Some 0
  else if ((192 <=? n) && (n <? 224))%N then Some 1
  else if ((224 <=? n) && (n <? 240))%N then Some 2
  else if ((240 <=? n) && (n <? 248))%N then Some 3
  else None.

Definition follows (b : ascii) : bool := ((128 <=? code b) && (code b <? 192))%N.

(** After four hexadecimal digits. *)
Definition end_hex (acc : list ascii) (hi : option N) (n : N) : option (list ascii * chars) :=
  let first := ((55296 <=? n) && (n <? 56320))%N in
  let second := ((56320 <=? n) && (n <? 57344))%N in
  match hi with
  | None =>
      if first then Some (acc, CHalf n)
      else if second then None
      else Some ((utf8_rev n ++ acc)%list, CUtf 0)
  | Some h =>
      if second then Some ((utf8_rev (65536 + 1024 * (h - 55296) + (n - 56320)) ++ acc)%list, CUtf 0) else None
  end.

(** A byte of a string, other than the closing quote. *)
Definition str_step (acc : list ascii) (x : chars) (b : ascii) : option (list ascii * chars) :=
  match x with
  | CUtf (S k) => if follows b then Some (b :: acc, CUtf k) else None
  | CUtf 0 =>
      if (code b =? 92)%N then Some (acc, CEsc)
      else if (code b <? 32)%N then None
      else option_map (fun k => (b :: acc, CUtf k)) (lead b)
  | CEsc =>
      if (code b =? 117)%N then Some (acc, CHex None 3 0)
      else option_map (fun x => (x :: acc, CUtf 0)) (escape b)
  | CHex hi todo n =>
      match hex b with
      | None => None
      | Some d =>
          match todo with
          | S t => Some (acc, CHex hi t (16 * n + d))
          | O => end_hex acc hi (16 * n + d)
          end
      end
  | CHalf h => if (code b =? 92)%N then Some (acc, CHalf2 h) else None
  | CHalf2 h => if (code b =? 117)%N then Some (acc, CHex (Some h) 3 0) else None
  end.

(** The quote that ends the string. *)
Definition closes (x : chars) (b : ascii) : bool :=
  match x with CUtf 0 => (code b =? 34)%N | _ => false end.

Definition j_byte (st : jst) (b : ascii) : list token * option jst :=
  let (c, e, l) := st in
  match l with
  | LNone => plain c e b
  | LWord [] _ => fail
  | LWord (w :: ws) t =>
      if Ascii.eqb b w then
        match ws with [] => emit t (ended c) | _ => go (J c e (LWord ws t)) end
      else fail
  | LNum x =>
      match num_step x b with
      | Some x' => go (J c e (LNum x'))
      | None => andplain (num_end x) c b
      end
  | LStr key acc x =>
      if closes x b then end_str c key acc
      else match str_step acc x b with
           | Some (acc', x') => go (J c e (LStr key acc' x'))
           | None => fail
           end
  end.

(** yajl_complete_parse ends a number at the end of the text, and reports it even if
    the text is incomplete. *)
Definition j_fin (st : jst) : list token * option jst :=
  let (c, e, l) := st in
  match l with
  | LNone => match c, e with [], EDone => go st | _, _ => fail end
  | LNum x =>
      match num_end x with
      | Some t => match c with [] => emit t (ended []) | _ => ([t], None) end
      | None => fail
      end
  | _ => fail
  end.

Definition json_tk : tokenizer := mkTk (J [] EVal LNone) j_byte j_fin.

(** ** Printing *)
Definition chr (n : N) : ascii := ascii_of_N n.
Definition str (s : string) : list ascii := list_ascii_of_string s.

Fixpoint digits (fuel : nat) (n : N) (acc : list ascii) : list ascii :=
  let acc' := chr (48 + n mod 10) :: acc in
  match fuel with
  | O => acc'
  | S f => if (n <? 10)%N then acc' else digits f (n / 10) acc'
  end.

Definition print_N (n : N) : list ascii := digits (N.to_nat (N.log2 n)) n [].
Definition print_Z (z : Z) : list ascii :=
  match z with
  | Zneg p => chr 45 :: print_N (Npos p)
  | _ => print_N (Z.to_N z)
  end.

Definition hexdigit (n : N) : ascii := if (n <? 10)%N then chr (48 + n) else chr (87 + n).

Definition esc (c : ascii) : list ascii :=
  let n := code c in
  if (n =? 34)%N || (n =? 92)%N then [chr 92; c]
  else if (n <? 32)%N then [chr 92; chr 117; chr 48; chr 48; hexdigit (n / 16); hexdigit (n mod 16)]
  else [c].

Definition print_str (s : string) : list ascii :=
  (chr 34 :: flat_map esc (str s) ++ [chr 34])%list.

(** The exact decimal number of a double; the exponent tells it from an integer. *)
Definition print_double (f : spec_float) : list ascii :=
  ((if sign_of f then [chr 45] else []) ++ print_N (fst (dec_of f)) ++ chr 101 :: print_Z (- Z.of_N (snd (dec_of f))))%list.

(** The items with commas between them. *)
Fixpoint commas (l : list (list ascii)) : list ascii :=
  match l with
  | [] => []
  | [x] => x
  | x :: r => (x ++ chr 44 :: commas r)%list
  end.

Fixpoint print (j : json) : list ascii :=
  match j with
  | JNull => str "null"
  | JSc (SBool true) => str "true"
  | JSc (SBool false) => str "false"
  | JSc (SInt z) => print_Z z
  | JSc (SDouble f) => print_double f
  | JSc (SStr s) => print_str s
  | JArr l => (chr 91 :: commas (map print l) ++ [chr 93])%list
  | JObj ps =>
      (chr 123 :: commas (map (fun kv => print_str (fst kv) ++ chr 58 :: print (snd kv)) ps) ++ [chr 125])%list
  end.

(** UTF-8, as far as the tokenizer checks it: [k] continuation bytes to come. *)
Fixpoint utf8_from (k : nat) (l : list ascii) : bool :=
  match l, k with
  | [], O => true
  | [], S _ => false
  | b :: r, S k => follows b && utf8_from k r
  | b :: r, O => match lead b with Some k => utf8_from k r | None => false end
  end.
Definition utf8 (s : string) : bool := utf8_from 0 (str s).

(** Documents with int64_t, finite doubles and UTF-8 texts. *)
Definition int64 (z : Z) : bool := ((- 9223372036854775808 <=? z) && (z <=? 9223372036854775807))%Z.
Fixpoint printable (j : json) : bool :=
  match j with
  | JNull => true
  | JSc (SInt z) => int64 z
  | JSc (SDouble f) => number f
  | JSc (SStr s) => utf8 s
  | JSc (SBool _) => true
  | JArr l => forallb printable l
  | JObj ps => forallb (fun kv => utf8 (fst kv) && printable (snd kv)) ps
  end.

(** ** Reading back *)

(** The tokens and the final state, from a list of tokens already reported. *)
Definition more (ts : list token) (r : list token * option jst) : list token * option jst :=
  ((ts ++ fst r)%list, snd r).

Notation toksof := (tokens json_tk).

Lemma tokens_cons b r st :
  toksof (b :: r) st =
  match j_byte st b with (ts, None) => (ts, None) | (ts, Some st') => more ts (toksof r st') end.
Proof.
  cbn [tokens]. change (tk_byte json_tk st b) with (j_byte st b).
  destruct (j_byte st b) as [ts [st'|]]; auto. unfold more. destruct (toksof r st'); auto.
Qed.

Lemma more_nil r : more [] r = r.
Proof. destruct r; auto. Qed.

Lemma more_more a b r : more a (more b r) = more (a ++ b)%list r.
Proof. unfold more. simpl. rewrite app_assoc. auto. Qed.

Lemma toks_go b r st st' : j_byte st b = go st' -> toksof (b :: r) st = toksof r st'.
Proof. intros H. rewrite tokens_cons, H. simpl. apply more_nil. Qed.

Lemma toks_emit b r st t st' : j_byte st b = emit t st' -> toksof (b :: r) st = more [t] (toksof r st').
Proof. intros H. rewrite tokens_cons, H. auto. Qed.

(** *** Strings *)
Lemma esc_read c e key acc a r : lead a = Some 0 ->
  toksof (esc a ++ r) (J c e (LStr key acc (CUtf 0))) = toksof r (J c e (LStr key (a :: acc) (CUtf 0))).
Proof.
  destruct a as [b0 b1 b2 b3 b4 b5 b6 b7].
  destruct b0, b1, b2, b3, b4, b5, b6, b7; intros H; try discriminate H;
    match goal with |- context [esc ?a] => let x := eval vm_compute in (esc a) in change (esc a) with x end;
    cbn [app]; repeat (erewrite toks_go; [|reflexivity]); reflexivity.
Qed.

(** Bytes that are printed as they are. *)
Lemma high_esc a : (127 < code a)%N -> esc a = [a].
Proof.
  intros H. unfold esc. destruct (code a =? 34)%N eqn:H1; [apply N.eqb_eq in H1; lia|].
  destruct (code a =? 92)%N eqn:H2; [apply N.eqb_eq in H2; lia|].
  destruct (code a <? 32)%N eqn:H3; [apply N.ltb_lt in H3; lia|]. reflexivity.
Qed.

Lemma follows_high a : follows a = true -> (127 < code a)%N.
Proof. unfold follows. intros H. apply andb_true_iff in H as [H _]. apply N.leb_le in H. lia. Qed.

Lemma lead_high a k : lead a = Some (S k) -> (127 < code a)%N.
Proof. unfold lead. destruct (code a <? 128)%N eqn:H; [discriminate|]. apply N.ltb_ge in H. lia. Qed.

Lemma high_read c e key acc k a r : (match k with O => exists k', lead a = Some (S k') | S _ => follows a = true end) ->
  toksof (esc a ++ r) (J c e (LStr key acc (CUtf k))) =
  toksof r (J c e (LStr key (a :: acc) (CUtf (match k with O => match lead a with Some k' => k' | None => 0 end | S k' => k' end)))).
Proof.
  intros H. assert (Hh : (127 < code a)%N) by (destruct k; [destruct H; eapply lead_high; eauto|apply follows_high; auto]).
  rewrite high_esc by auto. cbn [app]. apply toks_go. cbn [j_byte].
  destruct k; cbn [closes str_step].
  - destruct (code a =? 34)%N eqn:H1; [apply N.eqb_eq in H1; lia|].
    destruct (code a =? 92)%N eqn:H2; [apply N.eqb_eq in H2; lia|].
    destruct (code a <? 32)%N eqn:H3; [apply N.ltb_lt in H3; lia|]. destruct H as [k' Hk]. rewrite Hk. reflexivity.
  - rewrite H. reflexivity.
Qed.

Lemma text_rev s acc : text_of (rev (str s) ++ acc)%list = (text_of acc ++ s)%string.
Proof.
  unfold text_of, str. rewrite rev_app_distr, rev_involutive.
  generalize (rev acc). intros l. induction l as [|a l IH]; simpl; [apply string_of_list_ascii_of_string|].
  rewrite IH. auto.
Qed.

Lemma str_read c e (key : bool) s : forall acc k r, utf8_from k (str s) = true ->
  toksof (flat_map esc (str s) ++ chr 34 :: r) (J c e (LStr key acc (CUtf k))) =
  match end_str c key (rev (str s) ++ acc) with
  | (ts, Some st) => more ts (toksof r st)
  | (ts, None) => (ts, None)
  end.
Proof.
  induction s as [|a s IH]; intros acc k r Hu.
  - cbn [str list_ascii_of_string flat_map app]. destruct k; [|discriminate Hu]. rewrite tokens_cons. cbn [j_byte].
    change (closes (CUtf 0) (chr 34)) with true. cbn [rev app]. destruct (end_str c key acc) as [ts [st|]]; auto.
  - cbn [str list_ascii_of_string flat_map]. rewrite <- app_assoc. unfold str in IH.
    cbn [str list_ascii_of_string utf8_from] in Hu. destruct k as [|k].
    + destruct (lead a) as [[|k]|] eqn:Hl; [| |discriminate].
      * rewrite esc_read by auto. rewrite IH by auto. cbn [rev]. rewrite <- app_assoc. reflexivity.
      * rewrite high_read by eauto. rewrite Hl, IH by auto. cbn [rev]. rewrite <- app_assoc. reflexivity.
    + apply andb_true_iff in Hu as [Hf Hu]. rewrite high_read by auto. rewrite IH by auto.
      cbn [rev]. rewrite <- app_assoc. reflexivity.
Qed.

Lemma string_read c e (key : bool) s r : utf8 s = true -> (if key then e = EKey \/ e = EKeyOrEnd else e = EVal \/ e = EValOrEnd) ->
  toksof (print_str s ++ r) (J c e LNone) =
  if key then more [TKey s] (toksof r (J c EColon LNone)) else more [TSc (SStr s)] (toksof r (ended c)).
Proof.
  intros Hu He. unfold print_str. cbn [app]. rewrite <- app_assoc. cbn [app].
  rewrite (@toks_go (chr 34) _ _ (J c e (LStr key [] (CUtf 0)))).
  - rewrite str_read by exact Hu. unfold end_str. rewrite text_rev. simpl (text_of [] ++ s). destruct key; reflexivity.
  - destruct key, He; subst; reflexivity.
Qed.

(** *** Numbers *)
Definition dig (d : N) : ascii := chr (48 + d).

Lemma cls_dig d : (d < 10)%N -> cls_of (dig d) = KDigit d.
Proof.
  intros H. assert (D : In d [0;1;2;3;4;5;6;7;8;9]%N) by (simpl; lia).
  simpl in D. intuition (subst; reflexivity).
Qed.

(** Value of a list of digits. *)
Definition valn (l : list N) (n : N) : N := fold_left (fun a d => (10 * a + d)%N) l n.

(** The digits have the right value, and no leading zero. *)
Lemma digits_val f : forall n acc, (n < 10 * 2 ^ N.of_nat f)%N ->
  exists d ds, digits f n acc = (map dig (d :: ds) ++ acc)%list /\ Forall (fun d : N => d < 10)%N (d :: ds) /\
    valn ds d = n /\ (n <> 0 -> d <> 0)%N /\ (n = 0 -> ds = [])%N.
Proof.
  induction f as [|f IH]; intros n acc Hn; cbn [digits].
  - change (2 ^ N.of_nat 0)%N with 1%N in Hn. assert (Hm : (n mod 10 = n)%N) by (apply N.mod_small; lia).
    exists n, []. rewrite Hm. split; [reflexivity|split; [constructor; [lia|auto]|auto]].
  - destruct (n <? 10)%N eqn:Hlt.
    + apply N.ltb_lt in Hlt. assert (Hm : (n mod 10 = n)%N) by (apply N.mod_small; lia).
      exists n, []. rewrite Hm. split; [reflexivity|split; [constructor; [lia|auto]|auto]].
    + apply N.ltb_ge in Hlt.
      assert (Hdiv : (n / 10 < 10 * 2 ^ N.of_nat f)%N).
      { apply N.div_lt_upper_bound; [lia|]. rewrite Nat2N.inj_succ, N.pow_succ_r' in Hn. lia. }
      assert (Hm : (n mod 10 < 10)%N) by (apply N.mod_lt; lia).
      assert (Hd : (n / 10 <> 0)%N).
      { intros H0. apply N.div_small_iff in H0; lia. }
      destruct (IH (n / 10)%N (chr (48 + n mod 10) :: acc) Hdiv) as (d & ds & H1 & H2 & H3 & H4 & H5).
      exists d, (ds ++ [n mod 10]%N)%list. split; [|split; [|split; [|split]]].
      * rewrite H1. cbn [map app]. rewrite map_app, <- app_assoc. reflexivity.
      * inversion H2; subst. constructor; auto. apply Forall_app; split; auto.
      * unfold valn in *. rewrite fold_left_app, H3. cbn [fold_left]. symmetry. apply N.div_mod. lia.
      * auto.
      * lia.
Qed.

Lemma print_N_digits n :
  exists d ds, print_N n = map dig (d :: ds) /\ Forall (fun d : N => d < 10)%N (d :: ds) /\
    valn ds d = n /\ (n <> 0 -> d <> 0)%N /\ (n = 0 -> ds = [])%N.
Proof.
  unfold print_N. destruct (@digits_val (N.to_nat (N.log2 n)) n []) as (d & ds & H & Hr).
  - rewrite N2Nat.id. destruct (N.eq_dec n 0) as [->|Hn]; [reflexivity|].
    destruct (N.log2_spec n) as [_ H]; [lia|]. rewrite N.pow_succ_r' in H. lia.
  - exists d, ds. rewrite H, app_nil_r. auto.
Qed.

(** Reading the digits. *)
Lemma digits_read c e (f : N -> num) ds :
  (forall n d, (d < 10)%N -> num_step (f n) (dig d) = Some (f (10 * n + d)%N)) ->
  Forall (fun d : N => d < 10)%N ds -> forall n r,
  toksof (map dig ds ++ r) (J c e (LNum (f n))) = toksof r (J c e (LNum (f (valn ds n)))).
Proof.
  intros Hf. induction 1 as [|d ds Hd _ IH]; intros n r; auto. cbn [map app].
  rewrite (@toks_go (dig d) _ _ (J c e (LNum (f (10 * n + d)%N)))); [apply IH|].
  cbn [j_byte]. rewrite Hf; auto.
Qed.

(** The state after the digits of a number. *)
Definition num_lex (neg : bool) (n : N) : num := if (n =? 0)%N then NZero neg else NInt neg n.

Lemma N_read c e neg n st r :
  (forall d, (d < 10)%N -> j_byte st (dig d) = go (J c e (LNum (if (d =? 0)%N then NZero neg else NInt neg d)))) ->
  toksof (print_N n ++ r) st = toksof r (J c e (LNum (num_lex neg n))).
Proof.
  intros Hst. destruct (print_N_digits n) as (d & ds & -> & Hd & Hv & Hnz & Hz). inversion Hd; subst x l.
  cbn [map app]. rewrite (@toks_go (dig d) _ _ _ (Hst d H1)). unfold num_lex.
  destruct (n =? 0)%N eqn:Hn.
  - apply N.eqb_eq in Hn. rewrite (Hz Hn) in Hv |- *. simpl in Hv. subst d n. reflexivity.
  - apply N.eqb_neq in Hn. assert (Hd0 : (d =? 0)%N = false) by (apply N.eqb_neq; auto). rewrite Hd0.
    rewrite (@digits_read c e (NInt neg)); auto.
    + rewrite Hv. reflexivity.
    + intros m x Hx. unfold num_step. rewrite cls_dig by auto. reflexivity.
Qed.

(** The digits of an exponent. *)
Lemma pow_read c e neg n k eneg x st r :
  (forall d, (d < 10)%N -> j_byte st (dig d) = go (J c e (LNum (NPow neg n k eneg d)))) ->
  toksof (print_N x ++ r) st = toksof r (J c e (LNum (NPow neg n k eneg x))).
Proof.
  intros Hst. destruct (print_N_digits x) as (d & ds & -> & Hd & Hv & _ & _). inversion Hd; subst x0 l.
  cbn [map app]. rewrite (@toks_go (dig d) _ _ _ (Hst d H1)).
  rewrite (@digits_read c e (NPow neg n k eneg)); auto.
  - rewrite Hv. reflexivity.
  - intros m y Hy. unfold num_step. rewrite cls_dig by auto. reflexivity.
Qed.

Definition neg_of (z : Z) : bool := match z with Zneg _ => true | _ => false end.

Lemma first_digit c e d : (d < 10)%N -> e = EVal \/ e = EValOrEnd ->
  j_byte (J c e LNone) (dig d) = go (J c e (LNum (if (d =? 0)%N then NZero false else NInt false d))).
Proof. intros Hd He. cbn [j_byte]. unfold plain. rewrite cls_dig by auto. destruct He; subst; auto. Qed.

Lemma minus_digit c e d : (d < 10)%N ->
  j_byte (J c e (LNum NMinus)) (dig d) = go (J c e (LNum (if (d =? 0)%N then NZero true else NInt true d))).
Proof. intros Hd. cbn [j_byte]. unfold num_step. rewrite cls_dig by auto. auto. Qed.

Lemma signed_read c e (neg : bool) n r : e = EVal \/ e = EValOrEnd ->
  toksof ((if neg then [chr 45] else []) ++ print_N n ++ r) (J c e LNone) = toksof r (J c e (LNum (num_lex neg n))).
Proof.
  intros He. destruct neg; cbn [app].
  - rewrite (@toks_go (chr 45) _ _ (J c e (LNum NMinus))); [|destruct He; subst; reflexivity].
    apply N_read. intros; apply minus_digit; auto.
  - apply N_read. intros; apply first_digit; auto.
Qed.

Lemma print_Z_signed z : print_Z z = ((if neg_of z then [chr 45] else []) ++ print_N (Z.abs_N z))%list.
Proof. destruct z; reflexivity. Qed.

Lemma Z_read c e z r : e = EVal \/ e = EValOrEnd ->
  toksof (print_Z z ++ r) (J c e LNone) = toksof r (J c e (LNum (num_lex (neg_of z) (Z.abs_N z)))).
Proof. intros He. rewrite print_Z_signed, <- app_assoc. apply signed_read; auto. Qed.

Lemma double_read c e f r : e = EVal \/ e = EValOrEnd ->
  toksof (print_double f ++ r) (J c e LNone) =
  toksof r (J c e (LNum (NPow (sign_of f) (fst (dec_of f)) 0 (neg_of (- Z.of_N (snd (dec_of f)))) (snd (dec_of f))))).
Proof.
  intros He. unfold print_double. rewrite <- !app_assoc. rewrite signed_read by auto. cbn [app].
  set (n := fst (dec_of f)). set (x := snd (dec_of f)). set (s := sign_of f).
  rewrite (@toks_go (chr 101) _ _ (J c e (LNum (NExp s n 0)))).
  2: { cbn [j_byte]. unfold num_lex. destruct (n =? 0)%N eqn:Hn; [apply N.eqb_eq in Hn; rewrite Hn|]; reflexivity. }
  rewrite print_Z_signed, <- app_assoc.
  assert (Hx : Z.abs_N (- Z.of_N x) = x) by (destruct x; reflexivity). rewrite Hx.
  destruct (neg_of (- Z.of_N x)); cbn [app].
  - rewrite (@toks_go (chr 45) _ _ (J c e (LNum (NSign s n 0 true)))) by reflexivity.
    apply pow_read. intros d Hd. cbn [j_byte]. unfold num_step. rewrite cls_dig by auto. reflexivity.
  - apply pow_read. intros d Hd. cbn [j_byte]. unfold num_step. rewrite cls_dig by auto. reflexivity.
Qed.

Lemma end_double_of f : number f = true ->
  num_end (NPow (sign_of f) (fst (dec_of f)) 0 (neg_of (- Z.of_N (snd (dec_of f)))) (snd (dec_of f))) = Some (TSc (SDouble f)).
Proof.
  intros Hf. cbn [num_end]. unfold end_double.
  assert (Hx : (cond_Zopp (neg_of (- Z.of_N (snd (dec_of f)))) (Z.of_N (snd (dec_of f))) - Z.of_N 0 = - Z.of_N (snd (dec_of f)))%Z)
    by (destruct (snd (dec_of f)); reflexivity).
  rewrite Hx, strtod_dec by auto. unfold number in Hf. apply andb_true_iff in Hf as [-> _]. reflexivity.
Qed.

Lemma end_int_Z z : int64 z = true -> end_int (neg_of z) (Z.abs_N z) = Some (TSc (SInt z)).
Proof.
  intros H. unfold end_int, int_of. 
  replace (if neg_of z then (- Z.of_N (Z.abs_N z))%Z else Z.of_N (Z.abs_N z)) with z by (destruct z; reflexivity).
  unfold int64 in H. rewrite H. reflexivity.
Qed.

(** A byte that ends a number. *)
Definition delim (b : ascii) : Prop := match cls_of b with KComma | KRB | KRC => True | _ => False end.

Lemma num_byte c e x b t : delim b -> num_end x = Some t ->
  j_byte (J c e (LNum x)) b = more [t] (j_byte (ended c) b).
Proof.
  intros Hb Ht. unfold delim in Hb. cbn [j_byte ended].
  assert (Hs : num_step x b = None) by (unfold num_step; destruct x, (cls_of b); tauto).
  rewrite Hs. unfold andplain. rewrite Ht. cbn [ended j_exp]. destruct (plain c _ b); auto.
Qed.

Lemma num_then c e x b t r : delim b -> num_end x = Some t ->
  toksof (b :: r) (J c e (LNum x)) = more [t] (toksof (b :: r) (ended c)).
Proof.
  intros Hb Ht. rewrite !tokens_cons, (@num_byte c e x b t Hb Ht).
  destruct (j_byte (ended c) b) as [ts [st|]]; cbn [more fst snd]; auto.
Qed.

Lemma num_end_Z z : int64 z = true -> num_end (num_lex (neg_of z) (Z.abs_N z)) = Some (TSc (SInt z)).
Proof.
  intros H. rewrite <- (@end_int_Z z H). unfold num_lex. destruct (Z.abs_N z =? 0)%N eqn:Hn; auto.
  apply N.eqb_eq in Hn. rewrite Hn. reflexivity.
Qed.

(** *** Values *)

(** The printed value followed by a delimiter. *)
Definition reads_back (j : json) : Prop := forall c e b r, e = EVal \/ e = EValOrEnd -> delim b ->
  toksof (print j ++ b :: r) (J c e LNone) = more (toks j) (toksof (b :: r) (ended c)).

Lemma word_read c e w t b r : e = EVal \/ e = EValOrEnd ->
  (w = "null" /\ t = TNull \/ w = "true" /\ t = TSc (SBool true) \/ w = "false" /\ t = TSc (SBool false)) ->
  toksof (str w ++ b :: r) (J c e LNone) = more [t] (toksof (b :: r) (ended c)).
Proof.
  intros He [[-> ->]|[[-> ->]|[-> ->]]]; destruct He; subst e; cbn [str list_ascii_of_string app];
    repeat (erewrite toks_go; [|reflexivity]); erewrite toks_emit; reflexivity.
Qed.

(** The elements of an array, after the first. *)
Lemma elems_read c js : Forall reads_back js -> forall j e r, reads_back j -> e = EVal \/ e = EValOrEnd ->
  toksof (commas (map print (j :: js)) ++ chr 93 :: r) (J (CArr :: c) e LNone) =
  more (flat_map toks (j :: js) ++ [TArrEnd]) (toksof r (ended c)).
Proof.
  induction 1 as [|j' js Hj' _ IH]; intros j e r Hj He.
  - cbn [map commas flat_map]. rewrite Hj by (auto; exact I).
    rewrite (@toks_emit (chr 93) r (ended (CArr :: c)) TArrEnd (ended c)) by reflexivity.
    rewrite more_more, app_nil_r. reflexivity.
  - change (commas (map print (j :: j' :: js))) with (print j ++ chr 44 :: commas (map print (j' :: js)))%list.
    rewrite <- app_assoc. cbn [app]. rewrite Hj by (auto; exact I).
    rewrite (@toks_go (chr 44) _ (ended (CArr :: c)) (J (CArr :: c) EVal LNone)) by reflexivity.
    rewrite (IH j' EVal r Hj') by auto. rewrite more_more. cbn [flat_map]. rewrite !app_assoc. reflexivity.
Qed.

Definition print_pair (kv : string * json) : list ascii := (print_str (fst kv) ++ chr 58 :: print (snd kv))%list.
Definition toks_pair (kv : string * json) : list token := TKey (fst kv) :: toks (snd kv).
Definition reads_pair (kv : string * json) : Prop := utf8 (fst kv) = true /\ reads_back (snd kv).

Lemma pair_read c e kv b r : reads_pair kv -> e = EKey \/ e = EKeyOrEnd -> delim b ->
  toksof (print_pair kv ++ b :: r) (J c e LNone) = more (toks_pair kv) (toksof (b :: r) (ended c)).
Proof.
  intros [Hu Hv] He Hb. unfold print_pair. rewrite <- app_assoc.
  rewrite (@string_read c e true (fst kv) _ Hu He). cbn [app].
  rewrite (@toks_go (chr 58) _ (J c EColon LNone) (J c EVal LNone)) by reflexivity.
  rewrite Hv by auto. rewrite more_more. reflexivity.
Qed.

Lemma pairs_read c ps : Forall reads_pair ps -> forall kv e r,
  reads_pair kv -> e = EKey \/ e = EKeyOrEnd ->
  toksof (commas (map print_pair (kv :: ps)) ++ chr 125 :: r) (J (CObj :: c) e LNone) =
  more (flat_map toks_pair (kv :: ps) ++ [TMapEnd]) (toksof r (ended c)).
Proof.
  induction 1 as [|kv' ps Hk' _ IH]; intros kv e r Hk He.
  - cbn [map commas flat_map]. rewrite pair_read by (auto; exact I).
    rewrite (@toks_emit (chr 125) r (ended (CObj :: c)) TMapEnd (ended c)) by reflexivity.
    rewrite more_more, app_nil_r. reflexivity.
  - change (commas (map print_pair (kv :: kv' :: ps))) with (print_pair kv ++ chr 44 :: commas (map print_pair (kv' :: ps)))%list.
    rewrite <- app_assoc. cbn [app]. rewrite pair_read by (auto; exact I).
    rewrite (@toks_go (chr 44) _ (ended (CObj :: c)) (J (CObj :: c) EKey LNone)) by reflexivity.
    rewrite (IH kv' EKey r Hk') by auto. rewrite more_more. cbn [flat_map]. rewrite !app_assoc. reflexivity.
Qed.

(** Everything but numbers does not need the delimiter. *)
Lemma compound_read j c e r : e = EVal \/ e = EValOrEnd -> 
  (match j with JArr l => Forall reads_back l | JObj ps => Forall reads_pair ps | _ => False end) ->
  toksof (print j ++ r) (J c e LNone) = more (toks j) (toksof r (ended c)).
Proof.
  intros He H. destruct j as [|x|l|ps]; try tauto.
  - cbn [print toks app]. rewrite (@toks_emit (chr 91) _ _ TArrStart (J (CArr :: c) EValOrEnd LNone))
      by (destruct He; subst; reflexivity).
    rewrite <- app_assoc. cbn [app]. destruct l as [|j l].
    + cbn [map commas app]. rewrite (@toks_emit (chr 93) r (J (CArr :: c) EValOrEnd LNone) TArrEnd (ended c)) by reflexivity.
      rewrite more_more. reflexivity.
    + inversion H; subst. rewrite elems_read by auto. rewrite more_more. reflexivity.
  - cbn [print toks app]. rewrite (@toks_emit (chr 123) _ _ TMapStart (J (CObj :: c) EKeyOrEnd LNone))
      by (destruct He; subst; reflexivity).
    rewrite <- app_assoc. cbn [app]. destruct ps as [|kv ps].
    + cbn [map commas app]. rewrite (@toks_emit (chr 125) r (J (CObj :: c) EKeyOrEnd LNone) TMapEnd (ended c)) by reflexivity.
      rewrite more_more. reflexivity.
    + inversion H; subst. fold print_pair. fold toks_pair.
      change (map (fun kv0 => (print_str (fst kv0) ++ chr 58 :: print (snd kv0))%list) (kv :: ps))
        with (map print_pair (kv :: ps)).
      change (flat_map (fun kv0 => TKey (fst kv0) :: toks (snd kv0)) (kv :: ps)) with (flat_map toks_pair (kv :: ps)).
      rewrite pairs_read by auto. rewrite more_more. reflexivity.
Qed.

Fixpoint json_ind' (Q : json -> Prop) (Hn : Q JNull) (Hs : forall x, Q (JSc x))
  (Ha : forall l, Forall Q l -> Q (JArr l)) (Ho : forall ps, Forall (fun kv => Q (snd kv)) ps -> Q (JObj ps))
  (j : json) : Q j :=
  match j with
  | JNull => Hn
  | JSc x => Hs x
  | JArr l => Ha l ((fix f (l : list json) : Forall Q l :=
      match l with [] => Forall_nil _ | j :: r => Forall_cons j (json_ind' Hn Hs Ha Ho j) (f r) end) l)
  | JObj ps => Ho ps ((fix f (ps : list (string * json)) : Forall (fun kv => Q (snd kv)) ps :=
      match ps with [] => Forall_nil _ | kv :: r => Forall_cons kv (json_ind' Hn Hs Ha Ho (snd kv)) (f r) end) ps)
  end.

Lemma all_read_back j : printable j = true -> reads_back j.
Proof.
  induction j as [|x|l IH|ps IH] using json_ind'; intros Hp c e b r He Hb.
  - apply word_read with (w := "null"); auto.
  - destruct x as [[]|z|f|s]; simpl in Hp; try discriminate.
    + apply word_read with (w := "true"); auto.
    + apply word_read with (w := "false"); auto 6.
    + cbn [print toks]. rewrite Z_read by auto. apply num_then; auto. apply num_end_Z; auto.
    + cbn [print toks]. rewrite double_read by auto. apply num_then; auto. apply end_double_of; auto.
    + cbn [print toks]. apply (@string_read c e false s); auto.
  - apply compound_read; auto. simpl in Hp. rewrite forallb_forall in Hp. rewrite Forall_forall in *. auto.
  - apply compound_read; auto. simpl in Hp. rewrite forallb_forall in Hp. rewrite Forall_forall in *. 
    intros kv Hk. specialize (Hp kv Hk). apply andb_true_iff in Hp as [H1 H2]. split; auto.
Qed.

(** Every printable document is read back from its text. *)
Theorem json_round_trip j : printable j = true ->
  tokenize json_tk (print j) = (toks j, Some (ended [])).
Proof.
  intros Hp. unfold tokenize. change (tk_init json_tk) with (J [] EVal LNone).
  assert (Hs : (exists e x t, toks j = [t] /\ num_end x = Some t /\ toksof (print j) (J [] EVal LNone) = toksof [] (J [] e (LNum x))) \/
     toksof (print j ++ []) (J [] EVal LNone) = more (toks j) (toksof [] (ended []))).
  { destruct j as [|[[]|z|f|s]|l|ps]; simpl in Hp; try discriminate; try (right; reflexivity).
    - left. exists EVal. eexists _, _. split; [reflexivity|]. split; [apply num_end_Z; eauto|].
      cbn [print]. rewrite <- (app_nil_r (print_Z z)). apply Z_read. auto.
    - left. exists EVal. eexists _, _. split; [reflexivity|]. split; [apply end_double_of; eauto|].
      cbn [print]. rewrite <- (app_nil_r (print_double f)). apply double_read. auto.
    - right. apply (@string_read [] EVal false s); auto.
    - right. apply compound_read; auto. rewrite forallb_forall in Hp. apply Forall_forall. intros; apply all_read_back; auto.
    - right. apply compound_read; auto. rewrite forallb_forall in Hp. apply Forall_forall. intros kv Hk.
      specialize (Hp kv Hk). apply andb_true_iff in Hp as [H1 H2]. split; auto. apply all_read_back; auto. }
  destruct Hs as [(e & x & t & H1 & H2 & H3)|Hs].
  - rewrite H3, H1. cbn [tokens]. change (tk_fin json_tk) with j_fin. cbn [j_fin]. rewrite H2. reflexivity.
  - rewrite app_nil_r in Hs. rewrite Hs. cbn [tokens more fst snd app].
    change (tk_fin json_tk) with j_fin. cbn [j_fin ended go]. rewrite !app_nil_r. reflexivity.
Qed.

(** Completing a completed text changes nothing. *)
Lemma json_stable st ts st' : tk_fin json_tk st = (ts, Some st') -> tk_fin json_tk st' = ([], Some st').
Proof.
  change (tk_fin json_tk) with j_fin. destruct st as [c e l]. cbn [j_fin]. destruct l; try discriminate.
  - destruct c; [|discriminate]. destruct e; try discriminate. intros H; injection H as <- <-. reflexivity.
  - destruct (num_end x); [|discriminate]. destruct c; [|discriminate]. intros H; injection H as <- <-. reflexivity.
Qed.

(** ** Every accepted text is a document *)

(** The containers that are open, innermost first, with what was read of them. *)
Inductive frame := FA (js : list json) | FO (ps : list (string * json)) (k : option string).

Definition fctx (f : frame) : ctx := match f with FA _ => CArr | FO _ _ => CObj end.

Definition ftoks (f : frame) : list token :=
  match f with
  | FA js => TArrStart :: flat_map toks js
  | FO ps k => (TMapStart :: flat_map toks_pair ps ++ match k with Some k => [TKey k] | None => [] end)%list
  end.

Fixpoint ptoks (fs : list frame) : list token :=
  match fs with [] => [] | f :: r => (ptoks r ++ ftoks f)%list end.

(** Waiting for a value. *)
Definition waits (f : frame) : Prop := match f with FO _ None => False | _ => True end.

Definition vexp (e : expect) : Prop := e = EVal \/ e = EValOrEnd.
Definition kexp (e : expect) : Prop := e = EKey \/ e = EKeyOrEnd.

Definition top (e : expect) (fs : list frame) : Prop :=
  match e with
  | EVal => Forall waits fs
  | EValOrEnd => Forall waits fs /\ match fs with FA _ :: _ => True | _ => False end
  | EKey | EKeyOrEnd => match fs with FO _ None :: r => Forall waits r | _ => False end
  | EColon => match fs with FO _ (Some _) :: r => Forall waits r | _ => False end
  | ESep => match fs with (FA _ | FO _ None) :: r => Forall waits r | _ => False end
  | EDone => False
  end.

Definition lex_ok (e : expect) (l : lex) : Prop :=
  match l with
  | LNone => True
  | LWord _ t => vexp e /\ (t = TNull \/ exists x, t = TSc x)
  | LNum _ => vexp e
  | LStr key _ _ => if key then kexp e else vexp e
  end.

Definition seen (ts : list token) (st : jst) : Prop :=
  (st = ended [] /\ exists j, ts = toks j) \/
  (exists fs, map fctx fs = j_ctx st /\ top (j_exp st) fs /\ ts = ptoks fs /\ lex_ok (j_exp st) (j_lex st)).

Lemma seen_end fs j : Forall waits fs -> seen (ptoks fs ++ toks j) (ended (map fctx fs)).
Proof.
  intros H. destruct fs as [|[js|ps [k|]] r]; inversion H; subst.
  - left. split; auto. exists j. reflexivity.
  - right. exists (FA (js ++ [j]) :: r). cbn. repeat split; auto.
    rewrite flat_map_app, <- app_assoc. simpl. rewrite app_nil_r. reflexivity.
  - right. exists (FO (ps ++ [(k, j)]) None :: r). cbn. repeat split; auto.
    rewrite flat_map_app, <- !app_assoc. simpl. rewrite !app_nil_r, <- !app_assoc. reflexivity.
  - simpl in *. tauto.
Qed.

Lemma top_waits e fs : vexp e -> top e fs -> Forall waits fs.
Proof. intros [->| ->]; simpl; tauto. Qed.

Lemma seen_value ts c e l j : seen ts (J c e l) -> vexp e -> seen (ts ++ toks j) (ended c).
Proof.
  intros [[H _]|(fs & H1 & H2 & H3 & _)] He.
  - destruct He as [->| ->]; discriminate.
  - simpl in *. subst. apply seen_end. eapply top_waits; eauto.
Qed.

Lemma seen_scalar ts c e l t : seen ts (J c e l) -> vexp e -> t = TNull \/ (exists x, t = TSc x) ->
  seen (ts ++ [t]) (ended c).
Proof.
  intros H He [->|[x ->]].
  - apply (@seen_value ts c e l JNull); auto.
  - apply (@seen_value ts c e l (JSc x)); auto.
Qed.

Lemma seen_lex ts c e l l' : seen ts (J c e l) -> l = LNone \/ vexp e \/ kexp e -> lex_ok e l' -> e <> EDone ->
  seen ts (J c e l').
Proof.
  intros [[H _]|(fs & H1 & H2 & H3 & _)] _ Hl Hd.
  - unfold ended in H. injection H as _ He _. congruence.
  - right. exists fs. auto.
Qed.

Lemma v_not_done e : vexp e -> e <> EDone. Proof. intros [->| ->]; discriminate. Qed.
Lemma k_not_done e : kexp e -> e <> EDone. Proof. intros [->| ->]; discriminate. Qed.

Lemma plain_seen ts c e b ts' st' : seen ts (J c e LNone) -> plain c e b = (ts', Some st') -> seen (ts ++ ts') st'.
Proof.
  intros H. unfold plain.
  assert (Hval : forall r, (vexp e -> r = (ts', Some st') -> seen (ts ++ ts') st') ->
    match e with EVal | EValOrEnd => r | _ => fail end = (ts', Some st') -> seen (ts ++ ts') st').
  { intros r Hr. destruct e; try discriminate; apply Hr; [left|right]; auto. }
  assert (Hlex : forall l, vexp e -> lex_ok e l -> go (J c e l) = (ts', Some st') -> seen (ts ++ ts') st').
  { intros l He Hl Hg. injection Hg as <- <-. rewrite app_nil_r.
    eapply seen_lex; eauto. apply v_not_done; auto. }
  assert (Hopen : forall f e', vexp e -> e' = match f with FA _ => EValOrEnd | FO _ _ => EKeyOrEnd end ->
     ftoks f = [match f with FA _ => TArrStart | FO _ _ => TMapStart end] -> match f with FO _ (Some _) => False | _ => True end ->
     seen (ts ++ ftoks f) (J (fctx f :: c) e' LNone)).
  { intros f e' He -> Hf Hk. destruct H as [[H _]|(fs & H1 & H2 & H3 & _)].
    - unfold ended in H. injection H as _ H. apply v_not_done in He. congruence.
    - right. exists (f :: fs). simpl in *. subst. pose proof (@top_waits _ _ He H2) as Hw.
      destruct f as [js|ps [k|]]; simpl; try tauto; repeat split; auto; constructor; simpl; auto. }
  destruct (cls_of b) eqn:Hc; try discriminate.
  - intros Hg. injection Hg as <- <-. rewrite app_nil_r. auto.
  - apply Hval. intros He Hg. injection Hg as <- <-. apply (Hopen (FA [])); auto.
  - (* ] *)
    destruct c as [|[] c]; try discriminate. intros Hg.
    assert (Hg' : (e = EValOrEnd \/ e = ESep) /\ emit TArrEnd (ended c) = (ts', Some st')) by (destruct e; try discriminate; auto).
    destruct Hg' as [He Hg']. injection Hg' as <- <-.
    destruct H as [[H _]|(fs & H1 & H2 & H3 & _)]; [unfold ended in H; discriminate|]. simpl in *.
    destruct fs as [|[js|ps k] r]; try discriminate. injection H1 as <-.
    assert (Hw : Forall waits r) by (destruct He; subst e; simpl in H2; [destruct H2 as [H2 _]; inversion H2; auto|auto]).
    subst ts. simpl. rewrite <- app_assoc.
    apply (@seen_end r (JArr js) Hw).
  - apply Hval. intros He Hg. injection Hg as <- <-. apply (Hopen (FO [] None)); auto.
  - (* } *)
    destruct c as [|[] c]; try discriminate. intros Hg.
    assert (Hg' : (e = EKeyOrEnd \/ e = ESep) /\ emit TMapEnd (ended c) = (ts', Some st')) by (destruct e; try discriminate; auto).
    destruct Hg' as [He Hg']. injection Hg' as <- <-.
    destruct H as [[H _]|(fs & H1 & H2 & H3 & _)]; [unfold ended in H; discriminate|]. simpl in *.
    destruct fs as [|[js|ps k] r]; try discriminate. injection H1 as <-.
    destruct k as [k|]; [destruct He; subst e; simpl in H2; tauto|].
    assert (Hw : Forall waits r) by (destruct He; subst e; simpl in H2; auto).
    subst ts. simpl. rewrite app_nil_r, <- app_assoc.
    apply (@seen_end r (JObj ps) Hw).
  - (* , *)
    destruct c as [|[] c]; try discriminate; destruct e; try discriminate; intros Hg; injection Hg as <- <-;
      rewrite app_nil_r; (destruct H as [[H _]|(fs & H1 & H2 & H3 & _)]; [unfold ended in H; discriminate|]); simpl in *;
      destruct fs as [|[js|ps k] r]; try discriminate; right.
    + exists (FA js :: r). simpl. repeat split; auto. constructor; simpl; auto.
    + destruct k; [tauto|]. exists (FO ps None :: r). simpl. auto.
  - destruct e; try discriminate. intros Hg; injection Hg as <- <-. rewrite app_nil_r.
    destruct H as [[H _]|(fs & H1 & H2 & H3 & _)]; [unfold ended in H; destruct c; discriminate|]. simpl in *.
    destruct fs as [|[js|ps [k|]] r]; try tauto. right. exists (FO ps (Some k) :: r). simpl. repeat split; auto.
    constructor; simpl; auto.
  - assert (Hs : forall key : bool, (if key then kexp e else vexp e) -> go (J c e (LStr key [] (CUtf 0))) = (ts', Some st') -> seen (ts ++ ts') st').
    { intros key He Hg. injection Hg as <- <-. rewrite app_nil_r. eapply seen_lex; eauto.
      destruct key; [apply k_not_done|apply v_not_done]; auto. }
    destruct e; try discriminate.
    + apply (Hs false). left; reflexivity.
    + apply (Hs false). right; reflexivity.
    + apply (Hs true). right; reflexivity.
    + apply (Hs true). left; reflexivity.
  - apply Hval. intros He. apply Hlex; simpl; auto.
  - apply Hval. intros He. apply Hlex; auto.
  - apply Hval. intros He. apply Hlex; simpl; eauto.
  - apply Hval. intros He. apply Hlex; simpl; eauto.
  - apply Hval. intros He. apply Hlex; simpl; eauto.
Qed.

Lemma num_tok x t : num_end x = Some t -> t = TNull \/ exists x, t = TSc x.
Proof.
  unfold num_end, end_int, end_double. destruct x; try discriminate;
    repeat match goal with |- context [int_of ?a ?b] => destruct (int_of a b) | |- context [if ?b then _ else _] => destruct b end;
    simpl; try discriminate; intros H; injection H as <-; eauto.
Qed.

Lemma byte_seen ts st b ts' st' : seen ts st -> j_byte st b = (ts', Some st') -> seen (ts ++ ts') st'.
Proof.
  intros H. destruct st as [c e l]. cbn [j_byte].
  assert (Hok : lex_ok e l).
  { destruct H as [[H _]|(fs & _ & _ & _ & H)]; auto. injection H as _ _ ->. exact I. }
  assert (Hgo : forall l', lex_ok e l' -> (vexp e \/ kexp e) -> go (J c e l') = (ts', Some st') -> seen (ts ++ ts') st').
  { intros l' Hl He Hg. injection Hg as <- <-. rewrite app_nil_r. eapply seen_lex; eauto.
    destruct He; [apply v_not_done|apply k_not_done]; auto. }
  assert (Hnum : forall x, vexp e -> andplain (num_end x) c b = (ts', Some st') -> seen (ts ++ ts') st').
  { intros x He. unfold andplain. destruct (num_end x) as [t|] eqn:Ht; [|discriminate].
    pose proof (@seen_scalar _ _ _ _ _ H He (@num_tok _ _ Ht)) as H1.
    destruct (plain c (j_exp (ended c)) b) as [ts1 r1] eqn:Hp. intros Hg. injection Hg as <- ->.
    change (t :: ts1) with ([t] ++ ts1)%list. rewrite app_assoc. eapply plain_seen; eauto. }
  assert (Hkv : forall key : bool, (if key then kexp e else vexp e) -> vexp e \/ kexp e) by (intros [] ?; auto).
  destruct l as [|w t|x|key acc x]; cbn [lex_ok] in Hok.
  - apply plain_seen; auto.
  - destruct w as [|w ws]; [discriminate|]. destruct (Ascii.eqb b w); [|discriminate].
    destruct Hok as [He Ht]. destruct ws.
    + intros Hg. injection Hg as <- <-. eapply seen_scalar; eauto.
    + apply Hgo; simpl; auto.
  - destruct (num_step x b); [apply Hgo; simpl; auto|apply Hnum; auto].
  - destruct (closes x b).
    + unfold end_str. destruct key; intros Hg; injection Hg as <- <-.
      * destruct H as [[H _]|(fs & H1 & H2 & H3 & _)]; [discriminate|]. simpl in *.
        assert (Ht : match fs with FO _ None :: r => Forall waits r | _ => False end) by (destruct Hok; subst e; auto).
        destruct fs as [|[js|ps [k|]] r]; try tauto. right. exists (FO ps (Some (text_of acc)) :: r).
        simpl. subst. repeat split; auto. simpl. rewrite app_nil_r, <- app_assoc. reflexivity.
      * eapply seen_scalar; eauto.
    + destruct (str_step acc x b) as [[acc' x']|]; [|discriminate]. apply Hgo; simpl; eauto.
Qed.

Lemma tokens_seen bs : forall ts st ts' st', seen ts st -> toksof bs st = (ts', Some st') -> seen (ts ++ ts') st'.
Proof.
  induction bs as [|b bs IH]; intros ts st ts' st' H Ht.
  - injection Ht as <- <-. rewrite app_nil_r. auto.
  - rewrite tokens_cons in Ht. destruct (j_byte st b) as [t1 [st1|]] eqn:Hb; [|discriminate].
    pose proof (@byte_seen _ _ _ _ _ H Hb) as H1. unfold more in Ht. destruct (toksof bs st1) as [t2 r2] eqn:Hr.
    injection Ht as <- ->. rewrite app_assoc. simpl. eapply IH; eauto.
Qed.

Theorem json_texts_are_documents bs ts st : tokenize json_tk bs = (ts, Some st) -> exists j, ts = toks j.
Proof.
  unfold tokenize. change (tk_init json_tk) with (J [] EVal LNone).
  destruct (toksof bs (J [] EVal LNone)) as [t1 [st1|]] eqn:Ht; [|discriminate].
  assert (H0 : seen [] (J [] EVal LNone)) by (right; exists []; simpl; auto).
  pose proof (tokens_seen bs H0 Ht) as H. cbn [app] in H.
  change (tk_fin json_tk) with j_fin. destruct (j_fin st1) as [t2 r2] eqn:Hf. intros Hg. injection Hg as <- ->.
  destruct st1 as [c e l]. cbn [j_fin] in Hf.
  assert (Hok : lex_ok e l).
  { destruct H as [[H _]|(fs & _ & _ & _ & H)]; auto. injection H as _ _ ->. exact I. }
  destruct l; try discriminate.
  - destruct c; [|discriminate]. destruct e; try discriminate. injection Hf as <- _. rewrite app_nil_r.
    destruct H as [[_ Hj]|(fs & _ & H & _)]; [auto|simpl in H; tauto].
  - destruct (num_end x) as [t|] eqn:Hi; [|discriminate]. destruct c; [|discriminate]. injection Hf as <- _.
    destruct (@seen_scalar _ _ _ _ _ H Hok (@num_tok _ _ Hi)) as [[_ Hj]|(fs & H1 & H2 & _)]; auto.
    simpl in *. destruct fs; [tauto|discriminate].
Qed.

(** ** Different documents have different tokens *)
Lemma toks_prefix j : forall j' r r', (toks j ++ r)%list = (toks j' ++ r')%list -> j = j' /\ r = r'.
Proof.
  induction j as [|x|l IH|ps IH] using json_ind'; intros j' r r' H.
  - destruct j'; simpl in H; try discriminate. injection H as <-. auto.
  - destruct j'; simpl in H; try discriminate. injection H as <- <-. auto.
  - destruct j' as [|x|l'|ps']; simpl in H; try discriminate. injection H as H.
    rewrite <- !app_assoc in H. simpl in H.
    enough (l = l' /\ r = r') as [-> ->] by auto.
    revert l' H. induction IH as [|j l Hj _ IHl]; intros [|j' l'] H; simpl in H.
    + injection H as <-. auto.
    + destruct j'; simpl in H; discriminate.
    + destruct j; simpl in H; discriminate.
    + rewrite <- !app_assoc in H. apply Hj in H as [<- H]. apply IHl in H as [<- <-]. auto.
  - destruct j' as [|x|l'|ps']; simpl in H; try discriminate. injection H as H.
    rewrite <- !app_assoc in H. simpl in H.
    enough (ps = ps' /\ r = r') as [-> ->] by auto.
    revert ps' H. induction IH as [|[k j] ps Hj _ IHl]; intros [|[k' j'] ps'] H; simpl in H; try discriminate.
    + injection H as <-. auto.
    + injection H as <- H. rewrite <- !app_assoc in H. apply Hj in H as [<- H]. apply IHl in H as [<- <-]. auto.
Qed.

Lemma toks_inj j j' : toks j = toks j' -> j = j'.
Proof.
  intros H. destruct (@toks_prefix j j' [] []) as [K _]; auto. rewrite !app_nil_r. auto.
Qed.

(** Texts of different documents are different. *)
Lemma print_inj j j' : printable j = true -> printable j' = true -> print j = print j' -> j = j'.
Proof.
  intros H1 H2 H. apply json_round_trip in H1. apply json_round_trip in H2. rewrite H in H1. rewrite H1 in H2.
  injection H2 as H2. apply toks_inj; auto.
Qed.
