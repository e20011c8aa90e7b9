(** The grammar of JSON texts (RFC 8259), independently of the tokenizer of Json.v, and
    that this tokenizer reads every text of the grammar as the document it stands for. *)

From Verif Require Import Spec Model Infra Total Safe Refine Main Api ApiProofs History ApiFacts Outcome.
From Verif Require Import Strtod Json.
From Coq Require Import NArith Nnat SpecFloat.
Local Open Scope string_scope.
Set Implicit Arguments.

(** ** The grammar *)

Definition ch (n : N) : ascii := ascii_of_N n.

(** White space: blank, tab, line feed, carriage return. *)
Definition ws (l : list ascii) : Prop := Forall (fun b => In b [ch 32; ch 9; ch 10; ch 13]) l.

(** *** Strings *)

(** The bytes of a code point in UTF-8: bit patterns 0xxxxxxx, 110xxxxx 10xxxxxx, ...,
    always the shortest that is long enough. *)
Inductive utf8_of : N -> list ascii -> Prop :=
| U1 : forall x, (x < 128)%N -> utf8_of x [ch x]
| U2 : forall x y, (x < 32)%N -> (y < 64)%N -> (128 <= 64 * x + y)%N -> utf8_of (64 * x + y) [ch (192 + x); ch (128 + y)]
| U3 : forall x y z, (x < 16)%N -> (y < 64)%N -> (z < 64)%N -> (2048 <= 64 * (64 * x + y) + z)%N ->
    utf8_of (64 * (64 * x + y) + z) [ch (224 + x); ch (128 + y); ch (128 + z)]
| U4 : forall x y z u, (x < 8)%N -> (y < 64)%N -> (z < 64)%N -> (u < 64)%N -> (65536 <= 64 * (64 * (64 * x + y) + z) + u)%N ->
    utf8_of (64 * (64 * (64 * x + y) + z) + u) [ch (240 + x); ch (128 + y); ch (128 + z); ch (128 + u)].

(** What stands for itself in a string: printable ASCII apart from quote and backslash,
    and longer sequences of the patterns above.  Like yajl, the tokenizer checks no more
    than the patterns: sequences that are too long for their code point pass. *)
Inductive raw : list ascii -> Prop :=
| R1 : forall n, (32 <= n < 128)%N -> n <> 34%N -> n <> 92%N -> raw [ch n]
| R2 : forall x y, (x < 32)%N -> (y < 64)%N -> raw [ch (192 + x); ch (128 + y)]
| R3 : forall x y z, (x < 16)%N -> (y < 64)%N -> (z < 64)%N -> raw [ch (224 + x); ch (128 + y); ch (128 + z)]
| R4 : forall x y z u, (x < 8)%N -> (y < 64)%N -> (z < 64)%N -> (u < 64)%N ->
    raw [ch (240 + x); ch (128 + y); ch (128 + z); ch (128 + u)].

(** A hexadecimal digit, of either case, and its value. *)
Definition hex_digit (a : ascii) (d : N) : Prop :=
  (d < 10 /\ a = ch (48 + d))%N \/ (10 <= d < 16 /\ (a = ch (97 + (d - 10)) \/ a = ch (65 + (d - 10))))%N.

(** Four of them. *)
Inductive hex4 : list ascii -> N -> Prop :=
| Hex4 : forall a b c d x y z u, hex_digit a x -> hex_digit b y -> hex_digit c z -> hex_digit d u ->
    hex4 [a; b; c; d] (4096 * x + 256 * y + 16 * z + u).

(** The letters that may follow a backslash, and the characters they stand for. *)
Definition letters : list (N * N) :=
  [(34, 34); (92, 92); (47, 47); (98, 8); (102, 12); (110, 10); (114, 13); (116, 9)]%N.

(** One character of a string: its text between the quotes, and its bytes. *)
Inductive piece : list ascii -> list ascii -> Prop :=
| P_raw : forall bs, raw bs -> piece bs bs
| P_letter : forall c x, In (c, x) letters -> piece [ch 92; ch c] [ch x]
| P_u : forall hs n bs, hex4 hs n -> (n < 55296 \/ 57344 <= n)%N -> utf8_of n bs -> piece (ch 92 :: ch 117 :: hs) bs
| P_pair : forall hs ls h l bs, hex4 hs h -> hex4 ls l -> (55296 <= h < 56320)%N -> (56320 <= l < 57344)%N ->
    utf8_of (65536 + (h - 55296) * 1024 + (l - 56320)) bs ->
    piece ((ch 92 :: ch 117 :: hs) ++ ch 92 :: ch 117 :: ls) bs.

Inductive pieces : list ascii -> list ascii -> Prop :=
| P_none : pieces [] []
| P_more : forall t bs ts bss, piece t bs -> pieces ts bss -> pieces (t ++ ts) (bs ++ bss).

Inductive string_text : list ascii -> string -> Prop :=
| StringText : forall t bs, pieces t bs -> string_text (ch 34 :: t ++ [ch 34]) (string_of_list_ascii bs).

(** *** Numbers *)
Definition digits_text (ds : list N) : list ascii := map (fun d => ch (48 + d)) ds.
Definition digit_list (ds : list N) : Prop := ds <> [] /\ Forall (fun d => d < 10)%N ds.
Definition decimal (ds : list N) : N := fold_left (fun a d => 10 * a + d)%N ds 0%N.

(** A sign, the digits before the point, those after it, and the exponent. *)
Record decnum := Dec { d_neg : bool; d_int : list N; d_frac : option (list N); d_exp : option (ascii * option bool * list N) }.

Definition opt_or {A} (d : A) (o : option A) : A := match o with Some x => x | None => d end.

Definition well_formed (x : decnum) : Prop :=
  digit_list (d_int x) /\ (d_int x = [0%N] \/ hd 0%N (d_int x) <> 0%N) /\
  match d_frac x with Some ds => digit_list ds | None => True end /\
  match d_exp x with Some (e, _, ds) => (e = ch 101 \/ e = ch 69) /\ digit_list ds | None => True end.

Definition decnum_text (x : decnum) : list ascii :=
  ((if d_neg x then [ch 45] else []) ++ digits_text (d_int x) ++
   (match d_frac x with Some ds => ch 46 :: digits_text ds | None => [] end) ++
   (match d_exp x with
    | Some (e, sg, ds) =>
        e :: (match sg with Some true => [ch 45] | Some false => [ch 43] | None => [] end) ++ digits_text ds
    | None => [] end))%list.

(** An integer if it has neither fraction nor exponent, which must be an int64_t;
    otherwise the double nearest to it, which must be finite. *)
Definition decnum_value (x : decnum) : option scalar :=
  match d_frac x, d_exp x with
  | None, None =>
      let z := cond_Zopp (d_neg x) (Z.of_N (decimal (d_int x))) in
      if int64 z then Some (SInt z) else None
  | _, _ =>
      let fr := opt_or [] (d_frac x) in
      let ex := match d_exp x with
                | Some (_, sg, ds) => cond_Zopp (opt_or false sg) (Z.of_N (decimal ds))
                | None => 0%Z end in
      let f := strtod (d_neg x) (decimal (d_int x ++ fr)) (ex - Z.of_nat (List.length fr)) in
      if finite f then Some (SDouble f) else None
  end.

(** *** Values *)
Inductive value_text : list ascii -> json -> Prop :=
| V_null : value_text (str "null") JNull
| V_true : value_text (str "true") (JSc (SBool true))
| V_false : value_text (str "false") (JSc (SBool false))
| V_num : forall x s, well_formed x -> decnum_value x = Some s -> value_text (decnum_text x) (JSc s)
| V_str : forall t s, string_text t s -> value_text t (JSc (SStr s))
| V_arr0 : forall w, ws w -> value_text (ch 91 :: w ++ [ch 93]) (JArr [])
| V_arr : forall t l, elems_text t l -> value_text (ch 91 :: t ++ [ch 93]) (JArr l)
| V_obj0 : forall w, ws w -> value_text (ch 123 :: w ++ [ch 125]) (JObj [])
| V_obj : forall t ps, members_text t ps -> value_text (ch 123 :: t ++ [ch 125]) (JObj ps)
with elems_text : list ascii -> list json -> Prop :=
| E_one : forall w t w' j, ws w -> value_text t j -> ws w' -> elems_text (w ++ t ++ w') [j]
| E_more : forall w t w' j ts l, ws w -> value_text t j -> ws w' -> elems_text ts l -> elems_text (w ++ t ++ w' ++ ch 44 :: ts) (j :: l)
with members_text : list ascii -> list (string * json) -> Prop :=
| M_one : forall w k w1 w2 t w' s j, ws w -> string_text k s -> ws w1 -> ws w2 -> value_text t j -> ws w' ->
    members_text (w ++ k ++ w1 ++ ch 58 :: w2 ++ t ++ w') [(s, j)]
| M_more : forall w k w1 w2 t w' s j ts ps, ws w -> string_text k s -> ws w1 -> ws w2 -> value_text t j -> ws w' ->
    members_text ts ps -> members_text (w ++ k ++ w1 ++ ch 58 :: w2 ++ t ++ w' ++ ch 44 :: ts) ((s, j) :: ps).

(** A text: a value, with white space around it. *)
Inductive json_text : list ascii -> json -> Prop :=
| JsonText : forall w t w' j, ws w -> value_text t j -> ws w' -> json_text (w ++ t ++ w') j.

Scheme value_i := Minimality for value_text Sort Prop
with elems_i := Minimality for elems_text Sort Prop
with members_i := Minimality for members_text Sort Prop.
Combined Scheme grammar_ind from value_i, elems_i, members_i.

(** ** Reading *)

Lemma ws_read c e w r : ws w -> toksof (w ++ r) (J c e LNone) = toksof r (J c e LNone).
Proof.
  induction 1 as [|b w Hb _ IH]; auto. cbn [app]. rewrite <- IH. apply toks_go.
  simpl in Hb. intuition (subst; reflexivity).
Qed.

(** *** Strings *)
Lemma code_ch n : (n < 256)%N -> code (ch n) = n.
Proof. intros H. apply N_ascii_embedding. exact H. Qed.

Ltac codes := unfold follows, lead in *; rewrite ?code_ch in * by lia.
Ltac tests :=
  repeat match goal with
  | |- context [(?a =? ?b)%N] => destruct (N.eqb_spec a b); try lia
  | |- context [(?a <? ?b)%N] => destruct (N.ltb_spec a b); try lia
  | |- context [(?a <=? ?b)%N] => destruct (N.leb_spec a b); try lia
  end; cbn [andb orb]; auto.

(** A byte of a string. *)
Lemma str_go c e key acc x b r acc' x' : closes x b = false -> str_step acc x b = Some (acc', x') ->
  toksof (b :: r) (J c e (LStr key acc x)) = toksof r (J c e (LStr key acc' x')).
Proof. intros H1 H2. apply toks_go. cbn [j_byte]. rewrite H1, H2. reflexivity. Qed.

Lemma follow_go c e key acc k y r : (y < 64)%N ->
  toksof (ch (128 + y) :: r) (J c e (LStr key acc (CUtf (S k)))) = toksof r (J c e (LStr key (ch (128 + y) :: acc) (CUtf k))).
Proof. intros Hy. apply str_go; [reflexivity|]. cbn [str_step]. codes. tests. Qed.

Lemma lead_go c e key acc n k r : (32 <= n < 256)%N -> n <> 34%N -> n <> 92%N -> lead (ch n) = Some k ->
  toksof (ch n :: r) (J c e (LStr key acc (CUtf 0))) = toksof r (J c e (LStr key (ch n :: acc) (CUtf k))).
Proof.
  intros Hn H1 H2 Hl. apply str_go.
  - cbn [closes]. rewrite code_ch by lia. apply N.eqb_neq; auto.
  - cbn [str_step]. rewrite Hl, code_ch by lia. tests.
Qed.

(** In particular all characters in UTF-8, apart from those that need an escape. *)
Lemma utf8_raw n bs : utf8_of n bs -> (32 <= n)%N -> n <> 34%N -> n <> 92%N -> raw bs.
Proof. intros H Hn H1 H2. inversion H; subst; constructor; auto. Qed.

Lemma raw_read c e key acc bs r : raw bs ->
  toksof (bs ++ r) (J c e (LStr key acc (CUtf 0))) = toksof r (J c e (LStr key (rev bs ++ acc) (CUtf 0))).
Proof.
  intros H. inversion H; subst; cbn [app rev].
  - rewrite (@lead_go _ _ _ _ n 0) by (try lia; codes; tests). reflexivity.
  - rewrite (@lead_go _ _ _ _ _ 1) by (try lia; codes; tests). rewrite follow_go by auto. reflexivity.
  - rewrite (@lead_go _ _ _ _ _ 2) by (try lia; codes; tests). rewrite !follow_go by auto. reflexivity.
  - rewrite (@lead_go _ _ _ _ _ 3) by (try lia; codes; tests). rewrite !follow_go by auto. reflexivity.
Qed.

Lemma letter_read c e key acc n x r : In (n, x) letters ->
  toksof (ch 92 :: ch n :: r) (J c e (LStr key acc (CUtf 0))) = toksof r (J c e (LStr key (ch x :: acc) (CUtf 0))).
Proof.
  intros H. rewrite (@str_go _ _ _ _ _ (ch 92) _ acc CEsc) by reflexivity.
  simpl in H. intuition (match goal with H : (_, _) = _ |- _ => injection H as <- <- end; apply str_go; reflexivity).
Qed.

(** The encoder of the tokenizer. *)
Lemma mod64 a y : (y < 64)%N -> ((64 * a + y) mod 64 = y)%N.
Proof. intros. rewrite N.add_comm, N.mul_comm, N.mod_add by lia. apply N.mod_small; auto. Qed.
Lemma div64 a y : (y < 64)%N -> ((64 * a + y) / 64 = a)%N.
Proof. intros. rewrite N.add_comm, N.mul_comm, N.div_add by lia. rewrite N.div_small by auto. lia. Qed.

Lemma utf8_rev_spec n bs : utf8_of n bs -> utf8_rev n = rev bs.
Proof.
  intros H. inversion H; subst; unfold utf8_rev; cbn [rev app].
  - tests.
  - tests. rewrite mod64, div64 by auto. reflexivity.
  - tests. change 4096%N with (64 * 64)%N. rewrite <- N.div_div by lia. rewrite !mod64, !div64, mod64 by auto. reflexivity.
  - tests. change 262144%N with (64 * (64 * 64))%N. change 4096%N with (64 * 64)%N.
    rewrite <- !N.div_div by lia. rewrite !mod64, !div64, !mod64 by auto. reflexivity.
Qed.

Lemma hex_val a d : hex_digit a d -> hex a = Some d /\ (d < 16)%N.
Proof.
  intros H. unfold hex. destruct H as [[H ->]|[H [->| ->]]]; codes; tests; split; try lia; f_equal; lia.
Qed.

Lemma hex4_read c e key acc hi hs n r acc' x' : hex4 hs n -> end_hex acc hi n = Some (acc', x') ->
  toksof (hs ++ r) (J c e (LStr key acc (CHex hi 3 0))) = toksof r (J c e (LStr key acc' x')).
Proof.
  intros H He. inversion H; subst; clear H. cbn [app].
  repeat match goal with H : hex_digit _ _ |- _ => apply hex_val in H as [? ?] end.
  repeat (erewrite str_go; [|reflexivity|cbn [str_step]; match goal with H : hex ?a = _ |- context [hex ?a] => rewrite H end; reflexivity]).
  apply str_go; [reflexivity|]. cbn [str_step]. match goal with H : hex ?a = _ |- context [hex ?a] => rewrite H end.
  rewrite <- He. f_equal. lia.
Qed.

Lemma esc_u c e key acc r :
  toksof (ch 92 :: ch 117 :: r) (J c e (LStr key acc (CUtf 0))) = toksof r (J c e (LStr key acc (CHex None 3 0))).
Proof. rewrite (@str_go _ _ _ _ _ (ch 92) _ acc CEsc) by reflexivity. apply str_go; reflexivity. Qed.

Lemma piece_read c e key acc t bs r : piece t bs ->
  toksof (t ++ r) (J c e (LStr key acc (CUtf 0))) = toksof r (J c e (LStr key (rev bs ++ acc) (CUtf 0))).
Proof.
  intros H. inversion H; subst; clear H.
  - eapply raw_read; eauto.
  - cbn [app rev]. apply letter_read; auto.
  - cbn [app]. rewrite esc_u. eapply hex4_read; eauto. unfold end_hex. match goal with H : utf8_of _ _ |- _ => rewrite (utf8_rev_spec H) end. tests.
  - rewrite <- app_assoc. cbn [app]. rewrite esc_u.
    rewrite (@hex4_read _ _ _ _ _ hs h _ acc (CHalf h)) by (auto; unfold end_hex; tests).
    rewrite (@str_go _ _ _ _ _ (ch 92) _ acc (CHalf2 h)) by reflexivity.
    rewrite (@str_go _ _ _ _ _ (ch 117) _ acc (CHex (Some h) 3 0)) by reflexivity.
    eapply hex4_read; eauto. unfold end_hex.
    replace (65536 + 1024 * (h - 55296) + (l - 56320))%N with (65536 + (h - 55296) * 1024 + (l - 56320))%N by lia.
    match goal with H : utf8_of _ _ |- _ => rewrite (utf8_rev_spec H) end. tests.
Qed.

Lemma pieces_read c e key t bs : pieces t bs -> forall acc r,
  toksof (t ++ r) (J c e (LStr key acc (CUtf 0))) = toksof r (J c e (LStr key (rev bs ++ acc) (CUtf 0))).
Proof.
  induction 1 as [|t bs ts bss Hp _ IH]; intros acc r; auto.
  rewrite <- app_assoc, (piece_read _ _ _ _ _ Hp), IH, rev_app_distr, <- app_assoc. reflexivity.
Qed.

Lemma string_text_read c e (key : bool) t s r : string_text t s -> (if key then e = EKey \/ e = EKeyOrEnd else e = EVal \/ e = EValOrEnd) ->
  toksof (t ++ r) (J c e LNone) =
  if key then more [TKey s] (toksof r (J c EColon LNone)) else more [TSc (SStr s)] (toksof r (ended c)).
Proof.
  intros H He. destruct H as [t bs H]. cbn [app]. rewrite <- app_assoc. cbn [app].
  rewrite (@toks_go (ch 34) _ _ (J c e (LStr key [] (CUtf 0)))) by (destruct key, He; subst; reflexivity).
  rewrite (pieces_read _ _ _ H), app_nil_r. rewrite tokens_cons. cbn [j_byte].
  change (closes (CUtf 0) (ch 34)) with true. unfold end_str, text_of. rewrite rev_involutive. destruct key; reflexivity.
Qed.

(** *** Numbers *)
Lemma decimal_valn d ds : decimal (d :: ds) = valn ds d.
Proof. reflexivity. Qed.

Lemma digits_text_dig ds : digits_text ds = map dig ds.
Proof. reflexivity. Qed.

Lemma valn_app a b n : valn (a ++ b) n = valn b (valn a n).
Proof. apply fold_left_app. Qed.

(** The digits before the point. *)
Definition int_state (neg : bool) (ds : list N) : num :=
  if (hd 0 ds =? 0)%N then NZero neg else NInt neg (decimal ds).

Lemma int_read c e neg st ds r : digit_list ds -> ds = [0%N] \/ hd 0%N ds <> 0%N ->
  (forall d, (d < 10)%N -> j_byte st (dig d) = go (J c e (LNum (if (d =? 0)%N then NZero neg else NInt neg d)))) ->
  toksof (digits_text ds ++ r) st = toksof r (J c e (LNum (int_state neg ds))).
Proof.
  intros [Hn Hd] Hz Hst. destruct ds as [|d ds]; [tauto|]. inversion Hd; subst. cbn [digits_text map app].
  change (ch (48 + d)) with (dig d). rewrite (@toks_go (dig d) _ _ _ (Hst d H1)). unfold int_state. cbn [hd].
  destruct (N.eqb_spec d 0) as [->|Hd0].
  - destruct Hz as [Hz|Hz]; [|simpl in Hz; tauto]. injection Hz as ->. reflexivity.
  - change (map (fun d : N => ch (48 + d)) ds) with (map dig ds).
    rewrite (@digits_read c e (NInt neg)); auto.
    intros m x Hx. unfold num_step. rewrite cls_dig by auto. reflexivity.
Qed.

Lemma sign_read c e (neg : bool) ds r : digit_list ds -> ds = [0%N] \/ hd 0%N ds <> 0%N -> e = EVal \/ e = EValOrEnd ->
  toksof ((if neg then [ch 45] else []) ++ digits_text ds ++ r) (J c e LNone) = toksof r (J c e (LNum (int_state neg ds))).
Proof.
  intros Hd Hz He. destruct neg; cbn [app].
  - rewrite (@toks_go (ch 45) _ _ (J c e (LNum NMinus))) by (destruct He; subst; reflexivity).
    apply int_read; auto. intros; apply minus_digit; auto.
  - apply int_read; auto. intros; apply first_digit; auto.
Qed.

Lemma int_state_dec neg ds : digit_list ds -> ds = [0%N] \/ hd 0%N ds <> 0%N ->
  int_state neg ds = NInt neg (decimal ds) \/ int_state neg ds = NZero neg /\ decimal ds = 0%N.
Proof.
  intros _ [->|Hz]; [right; auto|]. left. unfold int_state. apply N.eqb_neq in Hz. rewrite Hz. reflexivity.
Qed.

(** The digits after the point. *)
Lemma frac_read c e neg ds : Forall (fun d => d < 10)%N ds -> forall n k r,
  toksof (digits_text ds ++ r) (J c e (LNum (NFrac neg n k))) =
  toksof r (J c e (LNum (NFrac neg (valn ds n) (k + N.of_nat (List.length ds))))).
Proof.
  induction 1 as [|d ds Hd _ IH]; intros n k r.
  - simpl. rewrite N.add_0_r. reflexivity.
  - cbn [digits_text map app]. rewrite (@toks_go (ch (48 + d)) _ _ (J c e (LNum (NFrac neg (10 * n + d) (k + 1))))).
    + rewrite IH. cbn [valn fold_left List.length]. replace (k + 1 + N.of_nat (List.length ds))%N with (k + N.of_nat (S (List.length ds)))%N by lia. reflexivity.
    + cbn [j_byte]. unfold num_step. change (ch (48 + d)) with (dig d). rewrite cls_dig by auto. reflexivity.
Qed.

Lemma exp_read c e neg n k eneg st d ds r : Forall (fun d => d < 10)%N (d :: ds) ->
  (forall d, (d < 10)%N -> j_byte st (dig d) = go (J c e (LNum (NPow neg n k eneg d)))) ->
  toksof (digits_text (d :: ds) ++ r) st = toksof r (J c e (LNum (NPow neg n k eneg (decimal (d :: ds))))).
Proof.
  intros Hd Hst. inversion Hd; subst. cbn [digits_text map app]. change (ch (48 + d)) with (dig d).
  rewrite (@toks_go (dig d) _ _ _ (Hst d H1)). change (map (fun d : N => ch (48 + d)) ds) with (map dig ds).
  rewrite (@digits_read c e (NPow neg n k eneg)); auto.
  intros m y Hy. unfold num_step. rewrite cls_dig by auto. reflexivity.
Qed.

(** The exponent, from a state that can have one. *)
Lemma pow_read' c e neg n k x sg ds (l : ascii) r :
  num_step x (ch 101) = Some (NExp neg n k) -> num_step x (ch 69) = Some (NExp neg n k) -> l = ch 101 \/ l = ch 69 -> digit_list ds ->
  toksof (l :: ((match sg with Some true => [ch 45] | Some false => [ch 43] | None => [] end) ++ digits_text ds) ++ r) (J c e (LNum x)) =
  toksof r (J c e (LNum (NPow neg n k (opt_or false sg) (decimal ds)))).
Proof.
  intros H1 H2 Hl [Hn Hd]. destruct ds as [|d ds]; [tauto|].
  rewrite (@toks_go l _ _ (J c e (LNum (NExp neg n k)))) by (cbn [j_byte]; destruct Hl; subst l; rewrite ?H1, ?H2; reflexivity).
  destruct sg as [[]|]; rewrite <- app_assoc; cbn [app opt_or].
  - rewrite (@toks_go (ch 45) _ _ (J c e (LNum (NSign neg n k true)))) by reflexivity.
    apply exp_read; auto. intros y Hy. cbn [j_byte]. unfold num_step. rewrite cls_dig by auto. reflexivity.
  - rewrite (@toks_go (ch 43) _ _ (J c e (LNum (NSign neg n k false)))) by reflexivity.
    apply exp_read; auto. intros y Hy. cbn [j_byte]. unfold num_step. rewrite cls_dig by auto. reflexivity.
  - apply exp_read; auto. intros y Hy. cbn [j_byte]. unfold num_step. rewrite cls_dig by auto. reflexivity.
Qed.

Lemma decnum_read c e x s : well_formed x -> decnum_value x = Some s -> e = EVal \/ e = EValOrEnd ->
  exists y, num_end y = Some (TSc s) /\ forall r, toksof (decnum_text x ++ r) (J c e LNone) = toksof r (J c e (LNum y)).
Proof.
  destruct x as [neg ip fr ex]. unfold well_formed, decnum_value, decnum_text. cbn [d_neg d_int d_frac d_exp].
  intros (Hi & Hz & Hf & Hx) Hv He. pose proof (@int_state_dec neg ip Hi Hz) as Hs.
  (* the state after the fraction *)
  set (n := decimal (ip ++ opt_or [] fr)). set (k := N.of_nat (List.length (opt_or [] fr))).
  assert (H1 : exists x1, (fr = None -> x1 = int_state neg ip) /\ (fr <> None -> x1 = NFrac neg n k) /\
    num_step x1 (ch 101) = Some (NExp neg n k) /\ num_step x1 (ch 69) = Some (NExp neg n k) /\ forall r,
    toksof ((if neg then [ch 45] else []) ++ digits_text ip ++
            (match fr with Some ds => ch 46 :: digits_text ds | None => [] end) ++ r) (J c e LNone) =
    toksof r (J c e (LNum x1))).
  { destruct fr as [ds|]; cbn [opt_or] in *.
    - exists (NFrac neg n k). split; [discriminate|]. split; auto. split; [reflexivity|]. split; [reflexivity|].
      intros r. rewrite sign_read by auto. destruct Hf as [Hf1 Hf2], ds as [|d ds]; [tauto|]. inversion Hf2; subst.
      cbn [app digits_text map].
      rewrite (@toks_go (ch 46) _ _ (J c e (LNum (NDot neg (decimal ip))))).
      2: { cbn [j_byte]. destruct Hs as [->|[-> ->]]; reflexivity. }
      rewrite (@toks_go (ch (48 + d)) _ _ (J c e (LNum (NFrac neg (10 * decimal ip + d) 1)))).
      2: { cbn [j_byte]. unfold num_step. change (ch (48 + d)) with (dig d). rewrite cls_dig by auto. reflexivity. }
      rewrite frac_read by auto. unfold n, k, decimal. rewrite fold_left_app. cbn [fold_left List.length]. unfold valn.
      replace (1 + N.of_nat (List.length ds))%N with (N.of_nat (S (List.length ds))) by lia. reflexivity.
    - exists (int_state neg ip). split; auto. split; [tauto|]. unfold n, k. rewrite app_nil_r. cbn [List.length N.of_nat].
      split; [|split; [|intros r; rewrite sign_read by auto; reflexivity]]; destruct Hs as [->|[-> ->]]; reflexivity. }
  destruct H1 as (x1 & Hn1 & Hn2 & Ha & Hb & Hr).
  assert (Hdbl : forall E, (if finite (strtod neg n (E - Z.of_nat (List.length (opt_or [] fr)))) then
      Some (SDouble (strtod neg n (E - Z.of_nat (List.length (opt_or [] fr))))) else None) = Some s ->
      end_double neg n k E = Some (TSc s)).
  { intros E. unfold end_double. unfold k. rewrite nat_N_Z.
    generalize (strtod neg n (E - Z.of_nat (List.length (opt_or [] fr)))). intros f.
    destruct (finite f) eqn:Hq; intros HE; [|discriminate HE]. injection HE as <-. reflexivity. }
  destruct ex as [[[l sg] ds]|].
  - destruct Hx as [Hl Hd]. exists (NPow neg n k (opt_or false sg) (decimal ds)). split.
    + cbn [num_end]. apply Hdbl. destruct fr; exact Hv.
    + intros r. rewrite <- !app_assoc. rewrite Hr. cbn [app]. apply pow_read'; auto.
  - exists x1. split.
    + destruct fr as [fr|].
      * rewrite Hn2 by discriminate. cbn [num_end]. apply Hdbl. exact Hv.
      * rewrite Hn1 by auto. destruct (int64 (cond_Zopp neg (Z.of_N (decimal ip)))) eqn:H64; [|discriminate Hv].
        assert (Hend : end_int neg (decimal ip) = Some (TSc s)).
        { injection Hv as <-. unfold end_int, int_of. unfold int64 in H64. destruct neg; cbn [cond_Zopp] in *; rewrite H64; reflexivity. }
        destruct Hs as [->|[-> K]]; cbn [num_end]; auto. rewrite <- K. auto.
    + intros r. rewrite !app_nil_r, <- !app_assoc. apply Hr.
Qed.

(** *** Values *)

(** A number ends only with what follows it. *)
Definition value_read (t : list ascii) (j : json) : Prop := forall c e, e = EVal \/ e = EValOrEnd ->
  (exists x k, toks j = [k] /\ num_end x = Some k /\ forall r, toksof (t ++ r) (J c e LNone) = toksof r (J c e (LNum x))) \/
  (forall r, toksof (t ++ r) (J c e LNone) = more (toks j) (toksof r (ended c))).

(** A byte that ends a number. *)
Definition stops (b : ascii) : Prop := match cls_of b with KComma | KRB | KRC | KWs => True | _ => False end.

Lemma num_stops c e x b t r : stops b -> num_end x = Some t ->
  toksof (b :: r) (J c e (LNum x)) = more [t] (toksof (b :: r) (ended c)).
Proof.
  intros Hb Ht. unfold stops in Hb. rewrite !tokens_cons. cbn [j_byte].
  assert (Hs : num_step x b = None) by (unfold num_step; destruct x, (cls_of b); tauto).
  rewrite Hs. unfold andplain. rewrite Ht. cbn [ended j_byte j_exp].
  destruct (plain c _ b) as [ts [st|]]; cbn [more fst snd]; auto.
Qed.

Lemma value_then t j c e b r : value_read t j -> e = EVal \/ e = EValOrEnd -> stops b ->
  toksof (t ++ b :: r) (J c e LNone) = more (toks j) (toksof (b :: r) (ended c)).
Proof.
  intros H He Hb. destruct (H c e He) as [(x & k & H1 & H2 & H3)|H3]; rewrite H3; auto.
  rewrite H1. apply num_stops; auto.
Qed.

Lemma ws_stops b w : ws (b :: w) -> stops b.
Proof. intros H. inversion H; subst. simpl in H2. intuition (subst; exact I). Qed.

(** A value, white space, and a separator or closing bracket. *)
Lemma value_sep t j c e w b r : value_read t j -> ws w -> e = EVal \/ e = EValOrEnd -> stops b ->
  toksof (t ++ w ++ b :: r) (J c e LNone) = more (toks j) (toksof (b :: r) (ended c)).
Proof.
  intros H Hw He Hb. destruct w as [|b' w].
  - apply value_then; auto.
  - cbn [app]. rewrite (@value_then t j); auto; [|eapply ws_stops; eauto].
    change (b' :: w ++ b :: r)%list with ((b' :: w) ++ b :: r)%list. unfold ended. rewrite ws_read by auto. reflexivity.
Qed.

Lemma word_read' w t j : (w = "null" /\ t = TNull \/ w = "true" /\ t = TSc (SBool true) \/ w = "false" /\ t = TSc (SBool false)) ->
  toks j = [t] -> value_read (str w) j.
Proof.
  intros Hw Hj c e He. right. intros r. rewrite Hj.
  destruct Hw as [[-> ->]|[[-> ->]|[-> ->]]]; destruct He; subst e; cbn [str list_ascii_of_string app];
    repeat (erewrite toks_go; [|reflexivity]); erewrite toks_emit; reflexivity.
Qed.

(** The elements of an array, and its closing bracket. *)
Definition elems_end (t : list ascii) (l : list json) : Prop := forall c e r, e = EVal \/ e = EValOrEnd ->
  toksof (t ++ ch 93 :: r) (J (CArr :: c) e LNone) = more (flat_map toks l ++ [TArrEnd]) (toksof r (ended c)).

Definition members_end (t : list ascii) (ps : list (string * json)) : Prop := forall c e r, e = EKey \/ e = EKeyOrEnd ->
  toksof (t ++ ch 125 :: r) (J (CObj :: c) e LNone) = more (flat_map toks_pair ps ++ [TMapEnd]) (toksof r (ended c)).

Lemma member_read w k w1 w2 t w' s j c e b r : ws w -> string_text k s -> ws w1 -> ws w2 -> value_read t j -> ws w' ->
  e = EKey \/ e = EKeyOrEnd -> stops b ->
  toksof (w ++ k ++ w1 ++ ch 58 :: w2 ++ t ++ w' ++ b :: r) (J c e LNone) = more (toks_pair (s, j)) (toksof (b :: r) (ended c)).
Proof.
  intros Hw Hk H1 H2 Hv H3 He Hb. rewrite ws_read by auto. rewrite (@string_text_read c e true k s _ Hk He).
  rewrite ws_read by auto. rewrite (@toks_go (ch 58) _ (J c EColon LNone) (J c EVal LNone)) by reflexivity.
  rewrite ws_read by auto. rewrite (@value_sep t j) by auto. rewrite more_more. reflexivity.
Qed.

Lemma grammar_read :
  (forall t j, value_text t j -> value_read t j) /\ (forall t l, elems_text t l -> elems_end t l) /\
  (forall t ps, members_text t ps -> members_end t ps).
Proof.
  apply grammar_ind.
  - apply word_read' with (t := TNull); auto.
  - apply word_read' with (t := TSc (SBool true)); auto.
  - apply word_read' with (t := TSc (SBool false)); auto 6.
  - intros x s Hx Hs c e He. left. destruct (@decnum_read c e x s Hx Hs He) as (y & Hy & Hr).
    exists y, (TSc s). split; [reflexivity|]. split; auto.
  - intros t s Ht c e He. right. intros r. apply (@string_text_read c e false t s r Ht He).
  - intros w Hw c e He. right. intros r. cbn [app]. rewrite <- app_assoc.
    rewrite (@toks_emit (ch 91) _ _ TArrStart (J (CArr :: c) EValOrEnd LNone)) by (destruct He; subst; reflexivity).
    rewrite ws_read by auto. cbn [app]. rewrite (@toks_emit (ch 93) r _ TArrEnd (ended c)) by reflexivity.
    rewrite more_more. reflexivity.
  - intros t l _ H c e He. right. intros r. cbn [app]. rewrite <- app_assoc.
    rewrite (@toks_emit (ch 91) _ _ TArrStart (J (CArr :: c) EValOrEnd LNone)) by (destruct He; subst; reflexivity).
    cbn [app]. rewrite H by auto. rewrite more_more. reflexivity.
  - intros w Hw c e He. right. intros r. cbn [app]. rewrite <- app_assoc.
    rewrite (@toks_emit (ch 123) _ _ TMapStart (J (CObj :: c) EKeyOrEnd LNone)) by (destruct He; subst; reflexivity).
    rewrite ws_read by auto. cbn [app]. rewrite (@toks_emit (ch 125) r _ TMapEnd (ended c)) by reflexivity.
    rewrite more_more. reflexivity.
  - intros t ps _ H c e He. right. intros r. cbn [app]. rewrite <- app_assoc.
    rewrite (@toks_emit (ch 123) _ _ TMapStart (J (CObj :: c) EKeyOrEnd LNone)) by (destruct He; subst; reflexivity).
    cbn [app]. rewrite H by auto. rewrite more_more. reflexivity.
  - intros w t w' j Hw _ Hv Hw' c e r He. rewrite <- !app_assoc. rewrite ws_read by auto. rewrite (@value_sep t j) by (auto; exact I).
    rewrite (@toks_emit (ch 93) r (ended (CArr :: c)) TArrEnd (ended c)) by reflexivity.
    rewrite more_more. cbn [flat_map]. rewrite app_nil_r. reflexivity.
  - intros w t w' j ts l Hw _ Hv Hw' _ IH c e r He. rewrite <- !app_assoc. cbn [app]. rewrite ws_read by auto.
    rewrite (@value_sep t j) by (auto; exact I).
    rewrite (@toks_go (ch 44) _ (ended (CArr :: c)) (J (CArr :: c) EVal LNone)) by reflexivity.
    rewrite IH by auto. rewrite more_more. cbn [flat_map]. rewrite <- !app_assoc. reflexivity.
  - intros w k w1 w2 t w' s j Hw Hk H1 H2 _ Hv H3 c e r He. 
    replace ((w ++ k ++ w1 ++ ch 58 :: w2 ++ t ++ w') ++ ch 125 :: r)%list
      with (w ++ k ++ w1 ++ ch 58 :: w2 ++ t ++ w' ++ ch 125 :: r)%list by (rewrite <- !app_assoc; cbn [app]; rewrite <- !app_assoc; reflexivity).
    rewrite (@member_read w k w1 w2 t w' s j) by (auto; exact I).
    rewrite (@toks_emit (ch 125) r (ended (CObj :: c)) TMapEnd (ended c)) by reflexivity.
    rewrite more_more. cbn [flat_map]. rewrite app_nil_r. reflexivity.
  - intros w k w1 w2 t w' s j ts ps Hw Hk H1 H2 _ Hv H3 _ IH c e r He.
    replace ((w ++ k ++ w1 ++ ch 58 :: w2 ++ t ++ w' ++ ch 44 :: ts) ++ ch 125 :: r)%list
      with (w ++ k ++ w1 ++ ch 58 :: w2 ++ t ++ w' ++ ch 44 :: ts ++ ch 125 :: r)%list
      by (rewrite <- !app_assoc; cbn [app]; rewrite <- !app_assoc; reflexivity).
    rewrite (@member_read w k w1 w2 t w' s j) by (auto; exact I).
    rewrite (@toks_go (ch 44) _ (ended (CObj :: c)) (J (CObj :: c) EKey LNone)) by reflexivity.
    rewrite IH by auto. rewrite more_more. cbn [flat_map]. rewrite <- !app_assoc. reflexivity.
Qed.

(** Every text of the grammar is read as the document it stands for. *)
Theorem grammar_tokens bs j : json_text bs j -> tokenize json_tk bs = (toks j, Some (ended [])).
Proof.
  intros [w t w' j' Hw Hv Hw']. unfold tokenize. change (tk_init json_tk) with (J [] EVal LNone).
  rewrite ws_read by auto. assert (He : EVal = EVal \/ EVal = EValOrEnd) by auto.
  pose proof (proj1 grammar_read _ _ Hv) as H.
  assert (Hd : forall ts, match more ts (toksof w' (ended [])) with
     | (ts1, Some st) => let (ts', r) := tk_fin json_tk st in ((ts1 ++ ts')%list, r) | (ts1, None) => (ts1, None) end = (ts, Some (ended []))).
  { intros ts. rewrite <- (app_nil_r w'). unfold ended at 1. rewrite ws_read by auto. cbn [tokens more fst snd].
    change (tk_fin json_tk) with j_fin. cbn [j_fin go]. rewrite !app_nil_r. reflexivity. }
  destruct w' as [|b w'].
  - destruct (H [] EVal He) as [(x & k & H1 & H2 & H3)|H3]; rewrite H3; [|apply Hd].
    rewrite H1. cbn [tokens]. change (tk_fin json_tk) with j_fin. cbn [j_fin]. rewrite H2. reflexivity.
  - rewrite (@value_then t j') by (auto; eapply ws_stops; eauto). apply Hd.
Qed.
