(** The converse of Grammar.v: a text that the tokenizer of Json.v accepts is a text of
    the grammar.  So with this tokenizer no text outside of the grammar is ever taken for
    a complete document. *)

From Verif Require Import Spec Model Infra Total Safe Refine Main Api ApiProofs History ApiFacts Outcome.
From Verif Require Import Strtod Json Grammar.
From Coq Require Import NArith Nnat SpecFloat.
Local Open Scope string_scope.
Set Implicit Arguments.

(** ** Runs without an error *)
Fixpoint runs_to_end (bs : list ascii) (st : jst) : Prop :=
  match bs with
  | [] => exists st', snd (j_fin st) = Some st'
  | b :: r => exists st', snd (j_byte st b) = Some st' /\ runs_to_end r st'
  end.

Lemma tokens_run bs : forall st ts st', toksof bs st = (ts, Some st') ->
  (exists x, snd (j_fin st') = Some x) -> runs_to_end bs st.
Proof.
  induction bs as [|b r IH]; intros st ts st' H Hf.
  - cbn [tokens] in H. injection H as <- <-. exact Hf.
  - rewrite tokens_cons in H. cbn [runs_to_end]. destruct (j_byte st b) as [ts1 [st1|]]; [|discriminate H].
    exists st1. split; [reflexivity|]. destruct (toksof r st1) as [ts2 [st2|]] eqn:E; [|discriminate H].
    unfold more in H. cbn [fst snd] in H. injection H as <- <-. eapply IH; eauto.
Qed.

Lemma tokenize_runs bs ts x : tokenize json_tk bs = (ts, Some x) -> runs_to_end bs (J [] EVal LNone).
Proof.
  unfold tokenize. change (tk_init json_tk) with (J [] EVal LNone).
  destruct (toksof bs (J [] EVal LNone)) as [ts1 [st|]] eqn:E; [|discriminate].
  change (tk_fin json_tk) with j_fin. destruct (j_fin st) as [ts' r] eqn:Ef. intros H. injection H as <- ->.
  eapply tokens_run; eauto. exists x. rewrite Ef. reflexivity.
Qed.

(** ** Classes of bytes *)
Ltac bytes b := destruct b as [b0 b1 b2 b3 b4 b5 b6 b7]; destruct b0, b1, b2, b3, b4, b5, b6, b7.

Lemma cls_inv b :
  match cls_of b with
  | KWs => In b [ch 32; ch 9; ch 10; ch 13]
  | KLB => b = ch 91 | KRB => b = ch 93 | KLC => b = ch 123 | KRC => b = ch 125
  | KComma => b = ch 44 | KColon => b = ch 58 | KQuote => b = ch 34 | KMinus => b = ch 45
  | KDigit d => (d < 10)%N /\ b = ch (48 + d)
  | Kn => b = ch 110 | Kt => b = ch 116 | Kf => b = ch 102 | KDot => b = ch 46 | KPlus => b = ch 43
  | Ke => b = ch 101 \/ b = ch 69
  | KOther => True
  end.
Proof. bytes b; vm_compute; auto 10. Qed.

(** ** White space and words *)
Lemma ws_cons b w : cls_of b = KWs -> ws w -> ws (b :: w).
Proof. intros H Hw. constructor; auto. pose proof (cls_inv b) as K. rewrite H in K. exact K. Qed.

Lemma ws_split c e bs : runs_to_end bs (J c e LNone) ->
  exists w r, bs = (w ++ r)%list /\ ws w /\ runs_to_end r (J c e LNone) /\
    match r with b :: _ => cls_of b <> KWs | [] => True end.
Proof.
  induction bs as [|b r IH]; intros H.
  - exists [], []. split; auto. split; [constructor|]. auto.
  - destruct (cls_of b) eqn:Hb.
    1: { cbn [runs_to_end j_byte] in H. destruct H as (st & H1 & H2). unfold plain in H1. rewrite Hb in H1. cbn [go snd] in H1.
         injection H1 as <-. destruct (IH H2) as (w & r' & -> & Hw & Ha & Hn).
         exists (b :: w), r'. split; auto. split; auto. apply ws_cons; auto. }
    all: exists [], (b :: r); split; auto; split; [constructor|]; split; auto; rewrite Hb; discriminate.
Qed.

Lemma word_inv c e t w : forall bs, w <> [] -> runs_to_end bs (J c e (LWord w t)) ->
  exists r, bs = (w ++ r)%list /\ runs_to_end r (ended c).
Proof.
  induction w as [|a w IH]; intros bs Hn H; [tauto|]. destruct bs as [|b bs].
  - destruct H as [st H]. discriminate H.
  - destruct H as (st & H1 & H2). cbn [j_byte] in H1. destruct (Ascii.eqb_spec b a) as [->|Hba]; [|discriminate H1].
    destruct w as [|a' w].
    + cbn [emit snd] in H1. injection H1 as <-. exists bs. auto.
    + cbn [go snd] in H1. injection H1 as <-. destruct (IH bs) as (r & -> & Hr); [discriminate|auto|]. exists r. auto.
Qed.

(** ** Strings *)
Lemma code_lt b : (code b < 256)%N.
Proof. apply N_ascii_bounded. Qed.
Lemma ch_code b : ch (code b) = b.
Proof. apply ascii_N_embedding. Qed.

Lemma follows_inv b : follows b = true -> exists y, (y < 64)%N /\ b = ch (128 + y).
Proof.
  unfold follows. intros H. apply andb_true_iff in H as [H1 H2]. apply N.leb_le in H1. apply N.ltb_lt in H2.
  exists (code b - 128)%N. split; [lia|]. replace (128 + (code b - 128))%N with (code b) by lia. symmetry. apply ch_code.
Qed.

Lemma lead_inv b k : lead b = Some k -> match k with
  | 0 => (code b < 128)%N
  | 1 => exists x, (x < 32)%N /\ b = ch (192 + x)
  | 2 => exists x, (x < 16)%N /\ b = ch (224 + x)
  | 3 => exists x, (x < 8)%N /\ b = ch (240 + x)
  | _ => False
  end.
Proof.
  unfold lead. intros H.
  destruct (N.ltb_spec (code b) 128) as [H0|H0]; [injection H as <-; auto|].
  destruct ((192 <=? code b) && (code b <? 224))%N eqn:H1.
  { injection H as <-. apply andb_true_iff in H1 as [H1 H2]. apply N.leb_le in H1. apply N.ltb_lt in H2.
    exists (code b - 192)%N. split; [lia|]. replace (192 + (code b - 192))%N with (code b) by lia. symmetry. apply ch_code. }
  destruct ((224 <=? code b) && (code b <? 240))%N eqn:H2.
  { injection H as <-. apply andb_true_iff in H2 as [H2 H3]. apply N.leb_le in H2. apply N.ltb_lt in H3.
    exists (code b - 224)%N. split; [lia|]. replace (224 + (code b - 224))%N with (code b) by lia. symmetry. apply ch_code. }
  destruct ((240 <=? code b) && (code b <? 248))%N eqn:H3; [|discriminate H].
  injection H as <-. apply andb_true_iff in H3 as [H3 H4]. apply N.leb_le in H3. apply N.ltb_lt in H4.
  exists (code b - 240)%N. split; [lia|]. replace (240 + (code b - 240))%N with (code b) by lia. symmetry. apply ch_code.
Qed.

(** A byte inside a string, whose state has more to come before a quote can end it. *)
Lemma str_more c e key acc x bs : (forall b, closes x b = false) -> runs_to_end bs (J c e (LStr key acc x)) ->
  exists b r acc' x', bs = b :: r /\ str_step acc x b = Some (acc', x') /\ runs_to_end r (J c e (LStr key acc' x')).
Proof.
  intros Hx H. destruct bs as [|b r].
  - destruct H as [st H]. discriminate H.
  - destruct H as (st & H1 & H2). cbn [j_byte] in H1. rewrite Hx in H1.
    destruct (str_step acc x b) as [[acc' x']|] eqn:E; [|discriminate H1]. cbn [go snd] in H1. injection H1 as <-.
    exists b, r, acc', x'. auto.
Qed.

Lemma follow_inv c e key acc k bs : runs_to_end bs (J c e (LStr key acc (CUtf (S k)))) ->
  exists y r, (y < 64)%N /\ bs = ch (128 + y) :: r /\ runs_to_end r (J c e (LStr key (ch (128 + y) :: acc) (CUtf k))).
Proof.
  intros H. apply str_more in H; [|reflexivity]. destruct H as (b & r & acc' & x' & -> & H1 & H2). cbn [str_step] in H1.
  destruct (follows b) eqn:Hb; [|discriminate H1]. injection H1 as <- <-. apply follows_inv in Hb as (y & Hy & ->).
  exists y, r. auto.
Qed.

Lemma hex_inv a d : hex a = Some d -> hex_digit a d.
Proof. unfold hex_digit. bytes a; intros H; vm_compute in H; try discriminate H; injection H as <-;
  first [left; split; reflexivity | right; split; [split; [discriminate|reflexivity]|first [left; reflexivity|right; reflexivity]]]. Qed.

Lemma hex_inv' a d : hex a = Some d -> (d < 16)%N.
Proof. bytes a; intros H; vm_compute in H; try discriminate H; injection H as <-; reflexivity. Qed.

Lemma hex_more c e key acc hi t n bs : runs_to_end bs (J c e (LStr key acc (CHex hi (S t) n))) ->
  exists a d r, bs = a :: r /\ hex_digit a d /\ runs_to_end r (J c e (LStr key acc (CHex hi t (16 * n + d)))).
Proof.
  intros H. apply str_more in H; [|reflexivity]. destruct H as (b & r & acc' & x' & -> & H1 & H2). cbn [str_step] in H1.
  destruct (hex b) as [d|] eqn:Hb; [|discriminate H1]. injection H1 as <- <-. exists b, d, r. split; auto. split; auto.
  apply hex_inv; auto.
Qed.

Lemma hex4_inv c e key acc hi bs : runs_to_end bs (J c e (LStr key acc (CHex hi 3 0))) ->
  exists hs n r acc' x', bs = (hs ++ r)%list /\ hex4 hs n /\ end_hex acc hi n = Some (acc', x') /\
    runs_to_end r (J c e (LStr key acc' x')).
Proof.
  intros H. apply hex_more in H as (a1 & d1 & r1 & -> & D1 & H). apply hex_more in H as (a2 & d2 & r2 & -> & D2 & H).
  apply hex_more in H as (a3 & d3 & r3 & -> & D3 & H).
  apply str_more in H; [|reflexivity]. destruct H as (a4 & r & acc' & x' & -> & H1 & H2). cbn [str_step] in H1.
  destruct (hex a4) as [d4|] eqn:Hb; [|discriminate H1]. apply hex_inv in Hb as D4.
  exists [a1; a2; a3; a4], (4096 * d1 + 256 * d2 + 16 * d3 + d4)%N, r, acc', x'. split; auto. split; [constructor; auto|].
  split; auto. rewrite <- H1. f_equal. lia.
Qed.

Lemma hex4_lt hs n : hex4 hs n -> (n < 65536)%N.
Proof. intros H. inversion H; subst. repeat match goal with H : hex_digit _ _ |- _ => apply hex_val in H as [_ ?] end. lia. Qed.

(** A code point has a text in UTF-8. *)
Lemma utf8_ex n : (n < 2097152)%N -> exists bs, utf8_of n bs.
Proof.
  intros H. destruct (N.ltb_spec n 128) as [H1|H1]; [eexists; apply U1; auto|].
  pose proof (N.div_mod n 64 ltac:(lia)) as E1. pose proof (N.mod_lt n 64 ltac:(lia)) as L1.
  set (y := (n mod 64)%N) in *. set (m := (n / 64)%N) in *.
  destruct (N.ltb_spec n 2048) as [H2|H2].
  { exists [ch (192 + m); ch (128 + y)]. replace n with (64 * m + y)%N by lia. apply U2; lia. }
  pose proof (N.div_mod m 64 ltac:(lia)) as E2. pose proof (N.mod_lt m 64 ltac:(lia)) as L2.
  set (z := (m mod 64)%N) in *. set (q := (m / 64)%N) in *.
  destruct (N.ltb_spec n 65536) as [H3|H3].
  { exists [ch (224 + q); ch (128 + z); ch (128 + y)]. replace n with (64 * (64 * q + z) + y)%N by lia. apply U3; lia. }
  pose proof (N.div_mod q 64 ltac:(lia)) as E3. pose proof (N.mod_lt q 64 ltac:(lia)) as L3.
  set (u := (q mod 64)%N) in *. set (p := (q / 64)%N) in *.
  exists [ch (240 + p); ch (128 + u); ch (128 + z); ch (128 + y)].
  replace n with (64 * (64 * (64 * p + u) + z) + y)%N by lia. apply U4; lia.
Qed.

Lemma escape_inv a x : escape a = Some x -> exists n m, In (n, m) letters /\ a = ch n /\ x = ch m.
Proof.
  bytes a; intros H; vm_compute in H; try discriminate H; injection H as <-.
  all: let go n m := (exists n, m; split; [vm_compute; tauto|split; reflexivity]) in
    first [go 34%N 34%N|go 92%N 92%N|go 47%N 47%N|go 98%N 8%N|go 102%N 12%N|go 110%N 10%N|go 114%N 13%N|go 116%N 9%N].
Qed.

Lemma end_hex_inv acc hi n acc' x' : end_hex acc hi n = Some (acc', x') ->
  match hi with
  | None => (55296 <= n < 56320)%N /\ x' = CHalf n \/ (n < 55296 \/ 57344 <= n)%N /\ x' = CUtf 0
  | Some h => (56320 <= n < 57344)%N /\ x' = CUtf 0
  end.
Proof.
  unfold end_hex. intros H. destruct hi as [h|].
  - revert H. generalize (utf8_rev (65536 + 1024 * (h - 55296) + (n - 56320))%N ++ acc)%list. intros a.
    destruct ((56320 <=? n) && (n <? 57344))%N eqn:Hs; intros H; [|discriminate H]. injection H as _ <-.
    apply andb_true_iff in Hs as [Hs1 Hs2]. apply N.leb_le in Hs1. apply N.ltb_lt in Hs2. auto.
  - revert H. generalize (utf8_rev n ++ acc)%list. intros a.
    destruct ((55296 <=? n) && (n <? 56320))%N eqn:Hf; intros H.
    + injection H as _ <-. apply andb_true_iff in Hf as [Hs1 Hs2]. apply N.leb_le in Hs1. apply N.ltb_lt in Hs2. auto.
    + destruct ((56320 <=? n) && (n <? 57344))%N eqn:Hs; [discriminate H|]. injection H as _ <-.
      apply andb_false_iff in Hf, Hs. rewrite N.leb_gt, N.ltb_ge in Hf, Hs. right. split; [lia|reflexivity].
Qed.

Lemma pair_text hs ls h l : hex4 hs h -> hex4 ls l -> (55296 <= h < 56320)%N -> (56320 <= l < 57344)%N ->
  exists out, piece ((ch 92 :: ch 117 :: hs) ++ ch 92 :: ch 117 :: ls) out.
Proof.
  intros Hh Hl H1 H2. destruct (@utf8_ex (65536 + (h - 55296) * 1024 + (l - 56320)) ltac:(lia)) as [out Ho].
  exists out. exact (P_pair Hh Hl H1 H2 Ho).
Qed.

Lemma piece_inv c e key acc bs : runs_to_end bs (J c e (LStr key acc (CUtf 0))) ->
  (exists r, bs = ch 34 :: r /\ runs_to_end r (if key then J c EColon LNone else ended c)) \/
  (exists t out r acc', piece t out /\ t <> [] /\ bs = (t ++ r)%list /\ runs_to_end r (J c e (LStr key acc' (CUtf 0)))).
Proof.
  intros H. destruct bs as [|b bs].
  { destruct H as [st H]. discriminate H. }
  destruct H as (st & H1 & H2). cbn [j_byte closes] in H1. destruct (N.eqb_spec (code b) 34) as [Hq|Hq].
  { left. exists bs. split; [rewrite <- (ch_code b), Hq; reflexivity|]. unfold end_str in H1.
    destruct key; cbn [emit snd] in H1; injection H1 as <-; auto. }
  right. destruct (str_step acc (CUtf 0) b) as [[acc' x']|] eqn:E; [|discriminate H1]. cbn [go snd] in H1. injection H1 as <-.
  cbn [str_step] in E. destruct (N.eqb_spec (code b) 92) as [Hb|Hb].
  - (* an escape *)
    injection E as <- <-. assert (Eb : b = ch 92) by (rewrite <- (ch_code b), Hb; reflexivity). subst b.
    apply str_more in H2; [|reflexivity]. destruct H2 as (b & r & acc' & x' & -> & H1 & H2). cbn [str_step] in H1.
    destruct (N.eqb_spec (code b) 117) as [Hu|Hu].
    + injection H1 as <- <-. assert (Eb : b = ch 117) by (rewrite <- (ch_code b), Hu; reflexivity). subst b.
      apply hex4_inv in H2 as (hs & n & r1 & acc1 & x1 & -> & Hh & He & H2). pose proof (hex4_lt Hh) as Hlt. apply end_hex_inv in He as [[Hf ->]|[Hf ->]].
      * apply str_more in H2; [|reflexivity]. destruct H2 as (b1 & r2 & acc2 & x2 & -> & H1 & H2). cbn [str_step] in H1.
        destruct (N.eqb_spec (code b1) 92) as [Hb1|Hb1]; [|discriminate H1]. injection H1 as <- <-.
        assert (Eb : b1 = ch 92) by (rewrite <- (ch_code b1), Hb1; reflexivity). subst b1.
        apply str_more in H2; [|reflexivity]. destruct H2 as (b1 & r3 & acc3 & x3 & -> & H1 & H2). cbn [str_step] in H1.
        destruct (N.eqb_spec (code b1) 117) as [Hb2|Hb2]; [|discriminate H1]. injection H1 as <- <-.
        assert (Eb : b1 = ch 117) by (rewrite <- (ch_code b1), Hb2; reflexivity). subst b1.
        apply hex4_inv in H2 as (ls & l & r4 & acc4 & x4 & -> & Hl & He & H2). apply end_hex_inv in He as [Hs ->].
        destruct (pair_text Hh Hl Hf Hs) as [out Ho].
        exists ((ch 92 :: ch 117 :: hs) ++ ch 92 :: ch 117 :: ls)%list, out, r4, acc4.
        split; [exact Ho|]. split; [discriminate|]. split; [|exact H2].
        rewrite <- app_assoc. reflexivity.
      * destruct (@utf8_ex n ltac:(lia)) as [out Ho].
        exists (ch 92 :: ch 117 :: hs), out, r1, acc1. split; [|split; [discriminate|split; [reflexivity|exact H2]]].
        exact (P_u Hh Hf Ho).
    + destruct (escape b) as [x|] eqn:Hx; [|discriminate H1]. cbn [option_map] in H1. injection H1 as <- <-.
      apply escape_inv in Hx as (n & m & Hin & -> & ->).
      exists [ch 92; ch n], [ch m], r. eexists. split; [apply P_letter; auto|]. split; [discriminate|]. split; [reflexivity|exact H2].
  - (* a character *)
    destruct (N.ltb_spec (code b) 32) as [Hc|Hc]; [discriminate E|].
    destruct (lead b) as [k|] eqn:Hk; [|discriminate E]. cbn [option_map] in E. injection E as <- <-.
    pose proof (lead_inv b Hk) as Hl. destruct k as [|[|[|[|k]]]]; [| | | |destruct Hl].
    + exists [b], [b], bs. eexists. split; [|split; [discriminate|split; [reflexivity|exact H2]]].
      apply P_raw. rewrite <- (ch_code b). apply R1; auto.
    + destruct Hl as (x & Hx & ->). apply follow_inv in H2 as (y & r & Hy & -> & H2).
      exists [ch (192 + x); ch (128 + y)], [ch (192 + x); ch (128 + y)], r. eexists.
      split; [|split; [discriminate|split; [reflexivity|exact H2]]]. apply P_raw, R2; auto.
    + destruct Hl as (x & Hx & ->). apply follow_inv in H2 as (y & r & Hy & -> & H2). apply follow_inv in H2 as (z & r1 & Hz & -> & H2).
      exists [ch (224 + x); ch (128 + y); ch (128 + z)], [ch (224 + x); ch (128 + y); ch (128 + z)], r1. eexists.
      split; [|split; [discriminate|split; [reflexivity|exact H2]]]. apply P_raw, R3; auto.
    + destruct Hl as (x & Hx & ->). apply follow_inv in H2 as (y & r & Hy & -> & H2). apply follow_inv in H2 as (z & r1 & Hz & -> & H2).
      apply follow_inv in H2 as (u & r2 & Hu & -> & H2).
      exists [ch (240 + x); ch (128 + y); ch (128 + z); ch (128 + u)], [ch (240 + x); ch (128 + y); ch (128 + z); ch (128 + u)], r2. eexists.
      split; [|split; [discriminate|split; [reflexivity|exact H2]]]. apply P_raw, R4; auto.
Qed.

Lemma pieces_inv c e key n : forall bs acc, List.length bs <= n -> runs_to_end bs (J c e (LStr key acc (CUtf 0))) ->
  exists t out r, pieces t out /\ bs = (t ++ ch 34 :: r)%list /\ runs_to_end r (if key then J c EColon LNone else ended c).
Proof.
  induction n as [|n IH]; intros bs acc Hn H; apply piece_inv in H as [(r & -> & H)|(t & out & r & acc' & Hp & Ht & -> & H)].
  - cbn [List.length] in Hn. lia.
  - destruct t; [tauto|]. cbn [List.length app] in Hn. lia.
  - exists [], [], r. split; [constructor|]. auto.
  - rewrite app_length in Hn. assert (List.length r <= n) by (destruct t; [tauto|cbn [List.length] in Hn; lia]).
    destruct (IH r acc' ltac:(auto) H) as (t2 & out2 & r2 & Hp2 & -> & H2). exists (t ++ t2)%list, (out ++ out2)%list, r2.
    split; [constructor; auto|]. rewrite <- app_assoc. auto.
Qed.

Lemma string_inv c e key bs : runs_to_end bs (J c e (LStr key [] (CUtf 0))) ->
  exists t s r, string_text t s /\ (ch 34 :: bs = t ++ r)%list /\ runs_to_end r (if key then J c EColon LNone else ended c).
Proof.
  intros H. destruct (@pieces_inv c e key _ bs [] (le_n _) H) as (t & out & r & Hp & -> & Hr).
  exists (ch 34 :: t ++ [ch 34])%list, (string_of_list_ascii out), r. split; [constructor; auto|]. split; auto.
  cbn [app]. rewrite <- app_assoc. reflexivity.
Qed.

(** ** Numbers *)
Definition signed (neg : bool) : list ascii := if neg then [ch 45] else [].
Definition first_digits (ds : list N) : Prop := digit_list ds /\ (ds = [0%N] \/ hd 0%N ds <> 0%N).

(** The text of a sign and mantissa: an integer part and perhaps a fraction. *)
Definition mantissa (p : list ascii) (neg : bool) (n k : N) (ip : list N) (fr : option (list N)) : Prop :=
  first_digits ip /\ match fr with Some ds => digit_list ds | None => True end /\
  n = decimal (ip ++ opt_or [] fr) /\ k = N.of_nat (List.length (opt_or [] fr)) /\
  p = (signed neg ++ digits_text ip ++ match fr with Some ds => ch 46 :: digits_text ds | None => [] end)%list.

(** What has been read in a state. *)
Definition num_text (p : list ascii) (x : num) : Prop :=
  match x with
  | NMinus => p = [ch 45]
  | NZero neg => p = (signed neg ++ [ch 48])%list
  | NInt neg n => exists ds, first_digits ds /\ hd 0%N ds <> 0%N /\ n = decimal ds /\ p = (signed neg ++ digits_text ds)%list
  | NDot neg n => exists ds, first_digits ds /\ n = decimal ds /\ p = (signed neg ++ digits_text ds ++ [ch 46])%list
  | NFrac neg n k => exists ip ds, mantissa p neg n k ip (Some ds)
  | NExp neg n k => exists q ip fr e, mantissa q neg n k ip fr /\ (e = ch 101 \/ e = ch 69) /\ p = (q ++ [e])%list
  | NSign neg n k eneg => exists q ip fr e, mantissa q neg n k ip fr /\ (e = ch 101 \/ e = ch 69) /\
      p = (q ++ e :: [if eneg then ch 45 else ch 43])%list
  | NPow neg n k eneg x => exists q ip fr e sg ds, mantissa q neg n k ip fr /\ (e = ch 101 \/ e = ch 69) /\
      eneg = opt_or false sg /\ digit_list ds /\ x = decimal ds /\
      p = (q ++ e :: (match sg with Some true => [ch 45] | Some false => [ch 43] | None => [] end) ++ digits_text ds)%list
  end.

Lemma digit_list_snoc ds d : Forall (fun d => d < 10)%N ds -> (d < 10)%N -> digit_list (ds ++ [d]).
Proof. intros H Hd. split; [destruct ds; discriminate|]. apply Forall_app. auto. Qed.
Lemma decimal_snoc ds d : decimal (ds ++ [d]) = (10 * decimal ds + d)%N.
Proof. unfold decimal. rewrite fold_left_app. reflexivity. Qed.
Lemma digits_text_snoc ds d : digits_text (ds ++ [d]) = (digits_text ds ++ [ch (48 + d)])%list.
Proof. apply map_app. Qed.
Lemma first_digit_one d : (d < 10)%N -> first_digits [d].
Proof.
  intros H. split; [split; [discriminate|repeat constructor; auto]|]. cbn [hd].
  destruct (N.eq_dec d 0) as [->|Hd]; auto.
Qed.

Lemma num_step_text p x b x' : num_text p x -> num_step x b = Some x' -> num_text (p ++ [b]) x'.
Proof.
  intros Hp H. pose proof (cls_inv b) as Hc. unfold num_step in H.
  destruct x; destruct (cls_of b) eqn:Hb; try discriminate H; injection H as <-; cbn [num_text] in *.
  - (* minus, digit *)
    destruct Hc as [Hd ->]. destruct (N.eqb_spec d 0) as [->|Hd0]; subst p; [reflexivity|].
    exists [d]. split; [apply first_digit_one; auto|]. auto.
  - subst p. exists [0%N]. split; [apply first_digit_one; reflexivity|]. rewrite <- app_assoc. rewrite Hc. auto.
  - exists p, [0%N], None, b. split; [|auto]. split; [apply first_digit_one; reflexivity|]. repeat (split; [auto|]). subst p. rewrite app_nil_r. reflexivity.
  - destruct Hc as [Hd ->]. destruct Hp as (ds & [[Hn Hl] Hz] & H0 & -> & ->). exists (ds ++ [d])%list.
    assert (Hh : hd 0%N (ds ++ [d]) <> 0%N) by (destruct ds; [tauto|exact H0]).
    split; [split; [apply digit_list_snoc; auto|auto]|]. split; auto. rewrite decimal_snoc, digits_text_snoc, app_assoc. auto.
  - destruct Hp as (ds & Hf & H0 & -> & ->). exists ds. split; auto. split; auto. rewrite <- app_assoc, Hc. reflexivity.
  - destruct Hp as (ds & Hf & H0 & -> & ->). eexists _, ds, None, b. split; [|auto]. split; auto. split; auto. cbn [opt_or List.length].
    rewrite !app_nil_r. auto.
  - destruct Hc as [Hd ->]. destruct Hp as (ds & Hf & -> & ->). exists ds, [d]. split; auto.
    split; [split; [discriminate|repeat constructor; auto]|]. cbn [opt_or List.length]. rewrite decimal_snoc. split; auto. split; auto.
    rewrite <- !app_assoc. reflexivity.
  - destruct Hc as [Hd ->]. destruct Hp as (ip & ds & Hf & [Hn Hl] & Hn' & Hk & ->). cbn [opt_or] in *. exists ip, (ds ++ [d])%list.
    split; auto. split; [apply digit_list_snoc; auto|]. cbn [opt_or]. rewrite app_assoc, decimal_snoc, app_length, digits_text_snoc. subst n k.
    split; auto. cbn [List.length]. split; [lia|]. rewrite <- !app_assoc. reflexivity.
  - destruct Hp as (ip & ds & Hm). exists p, ip, (Some ds), b. auto.
  - destruct Hp as (q & ip & fr & e & Hm & He & ->). exists q, ip, fr, e. split; auto. split; auto. rewrite <- app_assoc, Hc. reflexivity.
  - destruct Hc as [Hd ->]. destruct Hp as (q & ip & fr & e & Hm & He & ->). exists q, ip, fr, e, None, [d].
    split; auto. split; auto. split; auto. split; [split; [discriminate|repeat constructor; auto]|]. split; auto. rewrite <- app_assoc. reflexivity.
  - destruct Hp as (q & ip & fr & e & Hm & He & ->). exists q, ip, fr, e. split; auto. split; auto. rewrite <- app_assoc, Hc. reflexivity.
  - destruct Hc as [Hd ->]. destruct Hp as (q & ip & fr & e & Hm & He & ->). exists q, ip, fr, e, (Some eneg), [d].
    split; auto. split; auto. split; [auto|]. split; [split; [discriminate|repeat constructor; auto]|]. split; auto. rewrite <- app_assoc.
    destruct eneg; reflexivity.
  - destruct Hc as [Hd ->]. destruct Hp as (q & ip & fr & e & sg & ds & Hm & He & Hsg & [Hn Hl] & Hx & ->).
    exists q, ip, fr, e, sg, (ds ++ [d])%list. split; auto. split; auto. split; auto. split; [apply digit_list_snoc; auto|].
    rewrite decimal_snoc, digits_text_snoc. subst. split; auto. rewrite <- app_assoc. cbn [app]. rewrite <- app_assoc. reflexivity.
Qed.

Lemma num_end_text p x t : num_text p x -> num_end x = Some t -> exists d s, well_formed d /\ decnum_text d = p /\
  decnum_value d = Some s.
Proof.
  intros Hp H. destruct x; cbn [num_end] in H; try discriminate H; cbn [num_text] in Hp.
  - exists (Dec neg [0%N] None None), (SInt 0%Z). split; [|split; [subst p; destruct neg; reflexivity|destruct neg; vm_compute; reflexivity]].
    split; [split; [discriminate|repeat constructor]|]. split; [left; reflexivity|]. split; exact I.
  - destruct Hp as (ds & [Hd Hz] & _ & -> & ->). unfold end_int, int_of in H.
    exists (Dec neg ds None None), (SInt (cond_Zopp neg (Z.of_N (decimal ds)))). split; [|split].
    + split; [exact Hd|]. split; [exact Hz|]. split; exact I.
    + unfold decnum_text. cbn [d_neg d_int d_frac d_exp]. rewrite !app_nil_r. reflexivity.
    + unfold decnum_value. cbn [d_neg d_int d_frac d_exp]. unfold int64, cond_Zopp.
      destruct neg; match goal with |- (if ?c then _ else _) = _ => destruct c; [reflexivity|discriminate H] end.
  - destruct Hp as (ip & ds & [Hd Hz] & Hf & -> & -> & ->). cbn [opt_or] in *. unfold end_double in H.
    rewrite nat_N_Z in H.
    exists (Dec neg ip (Some ds) None), (SDouble (strtod neg (decimal (ip ++ ds)) (0 - Z.of_nat (List.length ds)))). split; [|split].
    + split; [exact Hd|]. split; [exact Hz|]. split; [exact Hf|exact I].
    + unfold decnum_text. cbn [d_neg d_int d_frac d_exp]. rewrite !app_nil_r. reflexivity.
    + unfold decnum_value. cbn [d_neg d_int d_frac d_exp opt_or]. destruct (finite _); [reflexivity|discriminate H].
  - destruct Hp as (q & ip & fr & e & sg & ds & ([Hd Hz] & Hf & -> & -> & ->) & He & -> & Hx & -> & ->). unfold end_double in H.
    rewrite nat_N_Z in H.
    exists (Dec neg ip fr (Some (e, sg, ds))), (SDouble (strtod neg (decimal (ip ++ opt_or [] fr))
      (cond_Zopp (opt_or false sg) (Z.of_N (decimal ds)) - Z.of_nat (List.length (opt_or [] fr))))). split; [|split].
    + split; [exact Hd|]. split; [exact Hz|]. split; [exact Hf|]. split; [exact He|exact Hx].
    + unfold decnum_text. cbn [d_neg d_int d_frac d_exp]. rewrite <- !app_assoc. reflexivity.
    + unfold decnum_value. cbn [d_neg d_int d_frac d_exp]. destruct fr as [fr|]; cbn [opt_or] in *;
        destruct (finite _); (reflexivity || discriminate H).
Qed.

(** A number, and what follows it. *)
Lemma num_inv c e : forall bs p x, num_text p x -> runs_to_end bs (J c e (LNum x)) ->
  exists q r s, bs = (q ++ r)%list /\ value_text (p ++ q) (JSc s) /\ runs_to_end r (ended c).
Proof.
  induction bs as [|b bs IH]; intros p x Hp H.
  - destruct H as [st H]. cbn [j_fin] in H. destruct (num_end x) as [t|] eqn:Ht; [|discriminate H].
    destruct c; [|discriminate H]. destruct (@num_end_text _ _ _ Hp Ht) as (d & s & Hw & <- & Hv).
    exists [], [], s. split; auto. rewrite app_nil_r. split; [apply V_num; auto|]. exists (ended []). reflexivity.
  - destruct H as (st & H1 & H2). cbn [j_byte] in H1. destruct (num_step x b) as [x'|] eqn:Hs.
    + cbn [go snd] in H1. injection H1 as <-. destruct (IH _ _ (@num_step_text _ _ _ _ Hp Hs) H2) as (q & r & s & -> & Hv & Hr).
      exists (b :: q), r, s. split; auto. rewrite <- app_assoc in Hv. auto.
    + unfold andplain in H1. destruct (num_end x) as [t|] eqn:Ht; [|discriminate H1].
      destruct (plain c (j_exp (ended c)) b) as [ts r] eqn:Hb. cbn [snd] in H1. subst r.
      destruct (@num_end_text _ _ _ Hp Ht) as (d & s & Hw & <- & Hv).
      exists [], (b :: bs), s. split; auto. rewrite app_nil_r. split; [apply V_num; auto|].
      exists st. split; auto. unfold ended in Hb |- *. cbn [j_exp] in Hb. cbn [j_byte]. rewrite Hb. reflexivity.
Qed.

(** ** Values *)

(** The first byte of a value, or the end of the array. *)
Definition value_start (e : expect) : Prop := e = EVal \/ e = EValOrEnd.

Definition value_found (n : nat) : Prop := forall bs c e, List.length bs <= n -> value_start e -> runs_to_end bs (J c e LNone) ->
  (exists w t j r, bs = (w ++ t ++ r)%list /\ ws w /\ value_text t j /\ runs_to_end r (ended c) /\ List.length r < List.length bs) \/
  (e = EValOrEnd /\ exists w c' r, c = CArr :: c' /\ bs = (w ++ ch 93 :: r)%list /\ ws w /\ runs_to_end r (ended c')).

(** The elements after the opening bracket or a comma. *)
Lemma elems_found n : value_found n -> forall m bs c e, m <= n -> List.length bs <= m -> value_start e -> runs_to_end bs (J (CArr :: c) e LNone) ->
  (exists t l r, bs = (t ++ ch 93 :: r)%list /\ elems_text t l /\ runs_to_end r (ended c)) \/
  (e = EValOrEnd /\ exists w r, bs = (w ++ ch 93 :: r)%list /\ ws w /\ runs_to_end r (ended c)).
Proof.
  intros V. induction m as [|m IH]; intros bs c e Hm Hl He H.
  - destruct bs; [|cbn [List.length] in Hl; lia]. destruct H as [st H]. destruct He; subst e; discriminate H.
  - destruct (V bs (CArr :: c) e ltac:(lia) He H) as [(w & t & j & r & -> & Hw & Ht & Hr & Hlt)|(E & w & c' & r & Hc & -> & Hw & Hr)].
    2: { injection Hc as <-. right. split; auto. exists w, r. auto. }
    left. unfold ended in Hr. apply ws_split in Hr as (w' & r' & -> & Hw' & Hr & Hn).
    destruct r' as [|b r']; [destruct Hr as [st Hr]; discriminate Hr|]. destruct Hr as (st & H1 & H2). cbn [j_byte] in H1.
    unfold plain in H1. pose proof (cls_inv b) as K. destruct (cls_of b); try discriminate H1; [tauto| |].
    + subst b. cbn [emit snd] in H1. injection H1 as <-. exists (w ++ t ++ w')%list, [j], r'. split; [rewrite <- !app_assoc; reflexivity|].
      split; [apply E_one; auto|auto].
    + subst b. cbn [go snd] in H1. injection H1 as <-. rewrite !app_length in Hlt, Hl. cbn [List.length] in Hlt, Hl.
      destruct (IH r' c EVal ltac:(lia) ltac:(lia) ltac:(left; reflexivity) H2) as [(ts & l & r & -> & Hts & Hr)|(E & _)]; [|discriminate E].
      exists (w ++ t ++ w' ++ ch 44 :: ts)%list, (j :: l), r. split; [rewrite <- !app_assoc; cbn [app]; reflexivity|].
      split; [apply E_more; auto|auto].
Qed.

Definition key_start (e : expect) : Prop := e = EKey \/ e = EKeyOrEnd.

Lemma members_found n : value_found n -> forall m bs c e, m <= n -> List.length bs <= m -> key_start e -> runs_to_end bs (J (CObj :: c) e LNone) ->
  (exists t ps r, bs = (t ++ ch 125 :: r)%list /\ members_text t ps /\ runs_to_end r (ended c)) \/
  (e = EKeyOrEnd /\ exists w r, bs = (w ++ ch 125 :: r)%list /\ ws w /\ runs_to_end r (ended c)).
Proof.
  intros V. induction m as [|m IH]; intros bs c e Hm Hl He H.
  - destruct bs; [|cbn [List.length] in Hl; lia]. destruct H as [st H]. destruct He; subst e; discriminate H.
  - apply ws_split in H as (w & r & -> & Hw & H & Hn). destruct r as [|b r]; [destruct H as [st H]; destruct He; subst e; discriminate H|].
    destruct H as (st & H1 & H2). cbn [j_byte] in H1. unfold plain in H1. pose proof (cls_inv b) as K.
    destruct (cls_of b) eqn:Hb; try tauto; try (destruct He; subst e; discriminate H1).
    + (* the closing bracket *)
      subst b. destruct He; subst e; [discriminate H1|]. cbn [emit snd] in H1. injection H1 as <-. right. split; auto.
      exists w, r. auto.
    + (* a key *)
      subst b. left. assert (E : st = J (CObj :: c) e (LStr true [] (CUtf 0))) by (destruct He; subst e; injection H1 as <-; reflexivity).
      subst st. clear H1. apply string_inv in H2 as (k & s & r1 & Hk & Ek & H2). rewrite Ek in *.
      apply ws_split in H2 as (w1 & r2 & -> & Hw1 & H2 & Hn1). destruct r2 as [|b r2]; [destruct H2 as [st H2]; discriminate H2|].
      destruct H2 as (st & H1 & H2). cbn [j_byte] in H1. unfold plain in H1. pose proof (cls_inv b) as K1.
      destruct (cls_of b); try discriminate H1; [tauto|]. subst b. cbn [go snd] in H1. injection H1 as <-.
      rewrite !app_length in Hl. cbn [List.length] in Hl.
      destruct (V r2 (CObj :: c) EVal ltac:(lia) ltac:(left; reflexivity) H2)
        as [(w2 & t & j & r3 & -> & Hw2 & Ht & Hr & Hlt)|(E & _)]; [|discriminate E].
      unfold ended in Hr. apply ws_split in Hr as (w' & r4 & -> & Hw' & Hr & Hn2).
      destruct r4 as [|b r4]; [destruct Hr as [st Hr]; discriminate Hr|]. destruct Hr as (st & H3 & H4). cbn [j_byte] in H3.
      unfold plain in H3. pose proof (cls_inv b) as K2. destruct (cls_of b); try discriminate H3; [tauto| |].
      * subst b. cbn [emit snd] in H3. injection H3 as <-.
        exists (w ++ k ++ w1 ++ ch 58 :: w2 ++ t ++ w')%list, [(s, j)], r4.
        split; [rewrite <- !app_assoc; cbn [app]; rewrite <- !app_assoc; reflexivity|]. split; [apply M_one; auto|auto].
      * subst b. cbn [go snd] in H3. injection H3 as <-. rewrite !app_length in Hlt, Hl. cbn [List.length] in Hlt, Hl.
        destruct (IH r4 c EKey ltac:(lia) ltac:(lia) ltac:(left; reflexivity) H4) as [(ts & ps & r5 & -> & Hts & Hr)|(E & _)]; [|discriminate E].
        exists (w ++ k ++ w1 ++ ch 58 :: w2 ++ t ++ w' ++ ch 44 :: ts)%list, ((s, j) :: ps), r5.
        split; [rewrite <- !app_assoc; cbn [app]; rewrite <- !app_assoc; cbn [app]; reflexivity|].
        split; [apply M_more; auto|auto].
Qed.

Lemma value_inv n : value_found n.
Proof.
  induction n as [|n V]; intros bs c e Hl He H.
  - destruct bs; [|cbn [List.length] in Hl; lia]. destruct H as [st H]. destruct He; subst e; destruct c; discriminate H.
  - apply ws_split in H as (w & r & -> & Hw & H & Hn). destruct r as [|b r]; [destruct H as [st H]; destruct He; subst e; destruct c; discriminate H|].
    destruct H as (st & H1 & H2). cbn [j_byte] in H1. unfold plain in H1. pose proof (cls_inv b) as K.
    rewrite app_length in Hl |- *. cbn [List.length] in Hl |- *.
    assert (Hval : forall t r' j, (b :: r = t ++ r')%list -> t <> [] -> value_text t j -> runs_to_end r' (ended c) ->
      exists w0 t j r0, (w ++ b :: r = w0 ++ t ++ r0)%list /\ ws w0 /\ value_text t j /\ runs_to_end r0 (ended c) /\
        List.length r0 < List.length w + S (List.length r)).
    { intros t r' j E Ht Hv Hr. exists w, t, j, r'. rewrite E. split; auto. split; auto. split; auto. split; auto.
      apply (f_equal (@List.length ascii)) in E. rewrite app_length in E. cbn [List.length] in E. destruct t; [tauto|]. cbn [List.length] in E. lia. }
    assert (Hst : forall x (q : list token * option jst), snd (match e with EVal | EValOrEnd => q | _ => fail end) = Some x -> snd q = Some x)
      by (destruct He; subst e; auto).
    destruct (cls_of b) eqn:Hb; try discriminate H1; try tauto.
    + (* [ *)
      apply Hst in H1. cbn [emit snd] in H1. injection H1 as <-. subst b. left.
      destruct (@elems_found n V n r c EValOrEnd (le_n _) ltac:(lia) ltac:(right; reflexivity) H2)
        as [(t & l & r' & -> & Ht & Hr)|(_ & w' & r' & -> & Hw' & Hr)].
      * apply Hval with (ch 91 :: t ++ [ch 93])%list r' (JArr l); [cbn [app]; rewrite <- app_assoc; reflexivity|discriminate| |auto].
        apply V_arr; auto.
      * apply Hval with (ch 91 :: w' ++ [ch 93])%list r' (JArr []); [cbn [app]; rewrite <- app_assoc; reflexivity|discriminate| |auto].
        apply V_arr0; auto.
    + (* ] *)
      subst b. destruct c as [|[|] c]; [discriminate H1| |discriminate H1]. destruct He; subst e; [discriminate H1|].
      cbn [emit snd] in H1. injection H1 as <-. right. split; auto. exists w, c, r. auto.
    + (* { *)
      apply Hst in H1. cbn [emit snd] in H1. injection H1 as <-. subst b. left.
      destruct (@members_found n V n r c EKeyOrEnd (le_n _) ltac:(lia) ltac:(right; reflexivity) H2)
        as [(t & l & r' & -> & Ht & Hr)|(_ & w' & r' & -> & Hw' & Hr)].
      * apply Hval with (ch 123 :: t ++ [ch 125])%list r' (JObj l); [cbn [app]; rewrite <- app_assoc; reflexivity|discriminate| |auto].
        apply V_obj; auto.
      * apply Hval with (ch 123 :: w' ++ [ch 125])%list r' (JObj []); [cbn [app]; rewrite <- app_assoc; reflexivity|discriminate| |auto].
        apply V_obj0; auto.
    + (* } *) destruct c as [|[|] c]; try discriminate H1. destruct He; subst e; discriminate H1.
    + (* , *) destruct c as [|[|] c], He; subst e; discriminate H1.
    + (* : *) destruct He; subst e; discriminate H1.
    + (* quote *)
      assert (E : st = J c e (LStr false [] (CUtf 0))) by (destruct He; subst e; injection H1 as <-; reflexivity). subst st b. clear H1.
      apply string_inv in H2 as (t & s & r' & Ht & Et & Hr). left. apply Hval with t r' (JSc (SStr s)); auto.
      * destruct Ht. discriminate.
      * apply V_str; auto.
    + (* minus *)
      apply Hst in H1. cbn [go snd] in H1. injection H1 as <-. left. subst b.
      destruct (@num_inv c e r [ch 45] NMinus eq_refl H2) as (q & r' & s & -> & Hv & Hr).
      apply Hval with (ch 45 :: q) r' (JSc s); auto. discriminate.
    + (* digit *)
      apply Hst in H1. cbn [go snd] in H1. injection H1 as <-. left. destruct K as [Hd ->].
      assert (Hx : num_text [ch (48 + d)] (if (d =? 0)%N then NZero false else NInt false d)).
      { destruct (N.eqb_spec d 0) as [->|Hd0]; [reflexivity|]. exists [d]. split; [apply first_digit_one; auto|]. auto. }
      destruct (@num_inv c e r _ _ Hx H2) as (q & r' & s & -> & Hv & Hr).
      apply Hval with (ch (48 + d) :: q) r' (JSc s); auto. discriminate.
    + (* null *)
      apply Hst in H1. cbn [go snd] in H1. injection H1 as <-. left. subst b. apply word_inv in H2 as (r' & -> & Hr); [|discriminate].
      apply Hval with (str "null") r' JNull; auto; [discriminate|constructor].
    + apply Hst in H1. cbn [go snd] in H1. injection H1 as <-. left. subst b. apply word_inv in H2 as (r' & -> & Hr); [|discriminate].
      apply Hval with (str "true") r' (JSc (SBool true)); auto; [discriminate|constructor].
    + apply Hst in H1. cbn [go snd] in H1. injection H1 as <-. left. subst b. apply word_inv in H2 as (r' & -> & Hr); [|discriminate].
      apply Hval with (str "false") r' (JSc (SBool false)); auto; [discriminate|constructor].
Qed.

(** A text that is accepted is a text of the grammar. *)
Theorem run_json_text bs : runs_to_end bs (J [] EVal LNone) -> exists j, json_text bs j.
Proof.
  intros H. destruct (@value_inv _ bs [] EVal (le_n _) ltac:(left; reflexivity) H) as [(w & t & j & r & -> & Hw & Ht & Hr & _)|(E & _)]; [|discriminate E].
  unfold ended in Hr. apply ws_split in Hr as (w' & r' & -> & Hw' & Hr & Hn).
  destruct r' as [|b r'].
  - rewrite app_nil_r. exists j. constructor; auto.
  - destruct Hr as (st & H1 & _). cbn [j_byte] in H1. unfold plain in H1. destruct (cls_of b); try discriminate H1; tauto.
Qed.

(** Exactly the texts of the grammar are accepted. *)
Theorem tokenize_json bs j : (exists x, tokenize json_tk bs = (toks j, Some x)) <-> json_text bs j.
Proof.
  split.
  - intros [x H]. destruct (run_json_text _ (tokenize_runs _ H)) as [j' Hj].
    pose proof (grammar_tokens Hj) as H'. rewrite H in H'. injection H' as Ht _. apply toks_inj in Ht. subst. auto.
  - intros H. exists (ended []). apply grammar_tokens; auto.
Qed.

(** So a text stands for at most one document. *)
Corollary json_text_unique bs j j' : json_text bs j -> json_text bs j' -> j = j'.
Proof.
  intros H H'. apply grammar_tokens in H, H'. rewrite H in H'. injection H' as Ht. apply toks_inj; auto.
Qed.
