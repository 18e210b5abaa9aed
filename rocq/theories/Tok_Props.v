(* Properties C20, C21, C22, C58, C59 and C60: the lexer. *)
From Verif Require Import Base Utf_Spec Tok_Model Tok_Spec Tok_Proofs Tok_Oper Tok_Word Tok_Num Tok_Str Tok_Lex.
From Coq Require Import ZifyBool ZifyN ZifyNat Lia.
Local Open Scope N_scope.
Local Open Scope list_scope.

(* ================= C20: integer literals ================= *)

(* A prefix, digits of the base with underscores among them, and a suffix, followed by something
   that is not a letter, a digit or (unless the previous token was a dot) a dot, is the integer its
   digits denote, of the type its suffix names.  Suffixes starting with b are excluded: see
   C20_suffix_b_refuted. *)
Theorem C20_literal ad line p t sx base ds ty r :
  literal p t sx base ds ty -> (length ds <= 2047)%nat -> value base 0 ds < 2 ^ 64 ->
  ~ In (hd 0 sx) (bytes "bB") -> (sx = [] -> ends (negb ad) r) ->
  toknext ad line (p ++ t ++ sx ++ r) = Ok (Int (value base 0 ds) ty, line, r, line).
Proof.
  intros L N V B E. rewrite (toknext_int ad line p t sx base ds ty r L N B E). rewrite N.min_l by lia. reflexivity.
Qed.
Print Assumptions C20_literal.

(* Conversely, what is read as an integer is such a spelling, all its digits are of the base, and
   no digit is left behind. *)
Theorem C20_only ad line s v ty l r l' : starts digit s -> toknext ad line s = Ok (Int v ty, l, r, l') ->
  exists p t sx base ds, s = p ++ t ++ sx ++ r /\ literal p t sx base ds ty /\
    v = N.min (value base 0 ds) (2 ^ 64 - 1) /\
    (sx = [] -> ~ starts (fun c => exists d, digit_value c d) r /\ ~ starts (fun c => c = 95) r).
Proof.
  intros SD E. rewrite (token_digit ad line s SD) in E.
  destruct (numlit (negb ad) s) as [[x r']| | |] eqn:NL; try discriminate. injection E as -> <- <- <-.
  destruct (numlit_sound _ _ _ _ _ SD NL) as (p & t & sx & base & ds & EQ & LIT & V & N).
  exists p, t, sx, base, ds. split; [exact EQ|]. split; [exact LIT|]. split; [exact V|]. intros H. specialize (N H).
  destruct r' as [|c r']; cbn; tauto.
Qed.
Print Assumptions C20_only.

(* A digit that is not of the base is an error, not the end of the literal. *)
Theorem C20_outside_base ad line p t ds base c d r : prefix base p -> spelt base t ds -> (base = 10 -> starts digit t) ->
  (length ds < 2047)%nat -> digit_value c d -> base <= d -> ~ (base = 10 /\ (c = 101 \/ c = 69)) ->
  ~ (p = [] /\ t = bytes "0" /\ c = 98) ->
  toknext ad line (p ++ t ++ c :: r) = Fatal.
Proof.
  intros P S T10 L D B NE NB.
  assert (G : good base) by (apply (prefix_good _ _ P)).
  assert (NL : forall mf nbuf, nbuf + N.of_nat (length ds) < 2047 -> numloop base mf nbuf false (t ++ c :: r) = None).
  { clear T10 NB L. induction S as [|t ds S IH|x y t ds X Y S IH]; intros mf nbuf L.
    - cbn [app numloop]. rewrite (proj2 (isxdigit_iff c)) by eauto. cbn [orb].
      assert (U : c =? 95 = false) by (unfold digit_value in D; lia). rewrite U.
      assert (Q : c =? 46 = false) by (unfold digit_value in D; lia). rewrite Q.
      unfold sizeofbuf. cbn [length] in L. destruct (N.leb_spec (2048 - 1) nbuf); [reflexivity|].
      assert (EX : (base =? 10) && ((c =? 101) || (c =? 69)) = false) by lia. rewrite EX.
      rewrite (proj2 (hexval_iff c d) D). destruct (N.leb_spec base d); [reflexivity|lia].
    - cbn [app numloop]. rewrite orb_true_r. cbn [N.eqb Pos.eqb]. apply IH. exact L.
    - cbn [app numloop]. rewrite (proj2 (isxdigit_iff x)) by eauto. cbn [orb].
      assert (U : x =? 95 = false) by (unfold digit_value in X; lia). rewrite U.
      assert (Q : x =? 46 = false) by (unfold digit_value in X; lia). rewrite Q.
      unfold sizeofbuf. cbn [length] in L. destruct (N.leb_spec (2048 - 1) nbuf); [reflexivity|].
      assert (EX : (base =? 10) && ((x =? 101) || (x =? 69)) = false) by (unfold digit_value in X; lia). rewrite EX.
      rewrite (proj2 (hexval_iff x y) X). destruct (N.leb_spec base y); [reflexivity|].
      rewrite (IH mf (nbuf + 1)) by lia. reflexivity. }
  assert (NUM : forall mf, number base mf (t ++ c :: r) = Fatal) by (intros mf; unfold number; rewrite NL by lia; reflexivity).
  assert (SD : starts digit (p ++ t ++ c :: r)).
  { destruct P; try (cbn; unfold digit; lia). specialize (T10 eq_refl). destruct t; [destruct T10|exact T10]. }
  rewrite (token_digit ad line _ SD).
  assert (NLIT : numlit (negb ad) (p ++ t ++ c :: r) = Fatal); [|rewrite NLIT; reflexivity].
  destruct P; try (apply NUM). specialize (T10 eq_refl). cbn [app] in *.
  unfold numlit. destruct (mtch 48 (t ++ c :: r)) as [s1|] eqn:A; [|apply NUM].
  apply mtch_some in A.
  assert (X : match s1 with [] => True | x :: _ => x <> 120 /\ x <> 98 /\ x <> 111 end).
  { destruct t as [|x t]; [destruct T10|]. cbn [app] in A. injection A as -> <-.
    inversion S as [| |? y ? ds' Y BY S']; subst. destruct t as [|x t]; cbn [app].
    - assert (c <> 98) by (intros ->; apply NB; repeat split). unfold digit_value in D. lia.
    - inversion S' as [|? ? S''|? y' ? ? Y' BY' S'']; subst; [lia|]. unfold digit_value in Y'. lia. }
  specialize (NUM (negb ad)). rewrite A in *. destruct s1 as [|x s1]; [exact NUM|]. cbn [mtch].
  destruct (N.eqb_spec x 120); [lia|]. destruct (N.eqb_spec x 98); [lia|]. destruct (N.eqb_spec x 111); [lia|]. exact NUM.
Qed.
Print Assumptions C20_outside_base.

(* A literal too large for 64 bits is not an error: it is read as 2^64 - 1. *)
Theorem C20_saturates ad line p t sx base ds ty r :
  literal p t sx base ds ty -> (length ds <= 2047)%nat -> 2 ^ 64 <= value base 0 ds ->
  ~ In (hd 0 sx) (bytes "bB") -> (sx = [] -> ends (negb ad) r) ->
  toknext ad line (p ++ t ++ sx ++ r) = Ok (Int (2 ^ 64 - 1) ty, line, r, line).
Proof.
  intros L N V B E. rewrite (toknext_int ad line p t sx base ds ty r L N B E). rewrite N.min_r by lia. reflexivity.
Qed.
Print Assumptions C20_saturates.
Lemma spelt_decimal ds : Forall (fun d => d < 10) ds -> spelt 10 (map (N.add 48) ds) ds.
Proof. induction 1 as [|d ds D F IH]; [constructor|]. apply sp_digit; [unfold digit_value; lia|lia|exact IH]. Qed.
(* so two different numbers, written in full, are read as the same one *)
Theorem C20_value_refuted : exists t1 t2 ds1 ds2, spelt 10 t1 ds1 /\ spelt 10 t2 ds2 /\ value 10 0 ds1 <> value 10 0 ds2 /\
  toknext false 1 t1 = toknext false 1 t2 /\ exists x, toknext false 1 t1 = Ok x.
Proof.
  exists (bytes "18446744073709551616"), (bytes "18446744073709551617"),
    [1;8;4;4;6;7;4;4;0;7;3;7;0;9;5;5;1;6;1;6], [1;8;4;4;6;7;4;4;0;7;3;7;0;9;5;5;1;6;1;7].
  split; [apply (spelt_decimal [1;8;4;4;6;7;4;4;0;7;3;7;0;9;5;5;1;6;1;6]); repeat constructor; lia|].
  split; [apply (spelt_decimal [1;8;4;4;6;7;4;4;0;7;3;7;0;9;5;5;1;6;1;7]); repeat constructor; lia|].
  split; [vm_compute; discriminate|]. split; [vm_compute; reflexivity|]. eexists. vm_compute. reflexivity.
Qed.
Print Assumptions C20_value_refuted.
(* The suffix b, for an 8 bit integer, cannot be used without u: 12b is an error and 12ub is not. *)
Theorem C20_suffix_b_refuted : exists t ds, spelt 10 t ds /\ starts digit t /\ value 10 0 ds < 128 /\
  int_suffix (bytes "b") (Some (false, Ity8)) /\ toknext false 1 (t ++ bytes "b ") = Fatal /\
  toknext false 1 (t ++ bytes "ub ") = Ok (Int (value 10 0 ds) (Some (true, Ity8)), 1, bytes " ", 1).
Proof.
  exists (bytes "12"), [1; 2].
  split; [apply (sp_digit 10 49 1); [unfold digit_value; lia|lia|]; apply (sp_digit 10 50 2); [unfold digit_value; lia|lia|]; constructor|].
  split; [cbn; unfold digit; lia|]. split; [vm_compute; reflexivity|]. split; [constructor; cbn; tauto|].
  split; vm_compute; reflexivity.
Qed.
Print Assumptions C20_suffix_b_refuted.
(* Floats: more than one decimal point is accepted, and strtod then ignores the rest. *)
Theorem C20_float_refuted : exists b, toknext false 1 b = Ok (Flt b, 1, [], 1) /\ (1 < count_occ N.eq_dec b 46%N)%nat.
Proof. exists (bytes "1.2.3"). split; vm_compute; auto. Qed.
Print Assumptions C20_float_refuted.

Example C20_ex1 : toknext false 7 (bytes " 0x123_fff;") = Ok (Int 0x123fff None, 7, bytes ";", 7).
Proof. vm_compute. reflexivity. Qed.
Example C20_ex2 : literal (bytes "0o") (bytes "7_77") (bytes "ul") 8 [7; 7; 7] (Some (true, Ity64)) /\ value 8 0 [7; 7; 7] = 511.
Proof.
  assert (DG : digit_value 55 7) by (unfold digit_value; lia).
  split; [|reflexivity]. split; [constructor|]. split; [apply sp_digit; [exact DG|lia|]; apply sp_under; apply sp_digit; [exact DG|lia|]; apply sp_digit; [exact DG|lia|constructor]|].
  split; [discriminate|]. split; [|discriminate]. apply (sx_unsigned 117 108); [auto|cbn; tauto].
Qed.

(* ================= C21: strings and characters ================= *)

(* A quoted text is read exactly when it is raw bytes and escapes, and then as the bytes they
   denote; the literal ends at the first quote that is not escaped. *)
Theorem C21_string ad line s b l r l' : toknext ad line (34 :: s) = Ok (Str b, l, r, l') <->
  (l = line /\ l' = line /\ exists t, spells t b /\ s = t ++ 34 :: r).
Proof.
  split.
  - rewrite toknext_solid by (apply solid_char; [reflexivity|lia|lia]). cbn [token N.eqb Pos.eqb]. change (isalpha 34) with false. cbn [orb].
    destruct (strlit (S (length s)) s) as [[b' r']| | |] eqn:S; try discriminate. intros E; injection E as <- <- <- <-.
    repeat split. destruct (strlit_sound _ _ _ _ S) as (t & -> & SP). eauto.
  - intros (-> & -> & t & SP & ->). apply toknext_str. exact SP.
Qed.
Print Assumptions C21_string.

(* A character literal is read exactly when it is an escape or a sequence with the shape of UTF-8,
   and then as the code point that denotes *)
Theorem C21_char ad line s v l r l' : Forall byte s -> toknext ad line (39 :: s) = Ok (Chr v, l, r, l') <->
  (l = line /\ l' = line /\ exists t, charform t v /\ s = t ++ 39 :: r).
Proof.
  intros B. split.
  - rewrite toknext_solid by (apply solid_char; [reflexivity|lia|lia]). cbn [token N.eqb Pos.eqb]. change (isalpha 39) with false. cbn [orb].
    destruct (charlit s) as [[b' r']| | |] eqn:S; try discriminate. intros E; injection E as <- <- <- <-.
    repeat split. apply charlit_iff in S; auto.
  - intros (-> & -> & t & SP & ->). apply toknext_chr; auto.
Qed.
Print Assumptions C21_char.
(* every code point but newline and backslash may be written as it is *)
Theorem C21_codepoint ad line c r : Forall byte r -> c < 0x110000 -> c <> 10 -> c <> 92 ->
  toknext ad line (bytes "'" ++ utf8 c ++ bytes "'" ++ r) = Ok (Chr c, line, r, line).
Proof.
  intros B L N1 N2. apply toknext_chr.
  - apply Forall_app. split; [|constructor; [unfold byte; lia|auto]].
    unfold utf8. repeat match goal with |- context [if ?x <? ?y then _ else _] => destruct (N.ltb_spec x y) end; repeat constructor; unfold byte; lia.
  - apply ch_raw; [apply utf8_like; lia| |].
    + unfold utf8. repeat match goal with |- context [if ?x <? ?y then _ else _] => destruct (N.ltb_spec x y) end; intros E; try discriminate E. injection E. lia.
    + unfold utf8. repeat match goal with |- context [if ?x <? ?y then _ else _] => destruct (N.ltb_spec x y) end; intros E; try discriminate E. injection E. lia.
Qed.
Print Assumptions C21_codepoint.

(* The manual allows any byte in a string; the byte 0xff ends the compilation with a message about
   the end of the file. *)
Theorem C21_any_byte_refuted : exists c, c < 256 /\ c <> 34 /\ c <> 92 /\ c <> 10 /\
  toknext false 1 (34 :: c :: bytes """") = Fatal.
Proof. exists 255. repeat split; try lia; vm_compute; reflexivity. Qed.
Print Assumptions C21_any_byte_refuted.
(* Over-long sequences, which are not UTF-8, are accepted: two texts for the same character. *)
Theorem C21_overlong_refuted : exists t c, utf8 c <> t /\ Forall byte t /\
  toknext false 1 (39 :: t ++ bytes "'") = Ok (Chr c, 1, [], 1) /\ (forall c', c' < 0x110000 -> utf8 c' <> t).
Proof.
  exists [193; 129], 65. split; [vm_compute; discriminate|]. split; [repeat constructor; unfold byte; lia|]. split; [vm_compute; reflexivity|].
  intros c' L. unfold utf8. repeat match goal with |- context [if ?x <? ?y then _ else _] => destruct (N.ltb_spec x y) end; try discriminate.
  intros E. apply (f_equal (hd 0)) in E. cbn [hd] in E. assert (2 <= c' / 64) by (apply N.div_le_lower_bound; lia). lia.
Qed.
Print Assumptions C21_overlong_refuted.

Example C21_ex1 : toknext false 3 (bytes """a\x41\u{e9}\n"" x") = Ok (Str [97; 65; 195; 169; 10], 3, bytes " x", 3).
Proof. vm_compute. reflexivity. Qed.
Example C21_ex2 : spells (bytes "a\u{e9}") [97; 195; 169].
Proof.
  apply st_raw; [lia|lia|lia|lia|]. apply (st_escape (bytes "u{e9}") 233 [195; 169] [] []); [|constructor].
  apply (es_uni (bytes "e9") [14; 9] 233); [|reflexivity|lia].
  apply (hx_cons 101 14); [unfold digit_value; lia|]. apply (hx_cons 57 9); [unfold digit_value; lia|constructor].
Qed.
Example C21_ex3 : toknext false 3 (bytes "'\u{1F600}'") = Ok (Chr 0x1F600, 3, [], 3).
Proof. vm_compute. reflexivity. Qed.

(* ================= C22: comments ================= *)

(* A text starting with slash star is skipped up to r exactly when what is skipped is a comment:
   an opening, a balanced text, and the closing that matches; the line counter moves by the
   newlines in it. *)
Theorem C22_comment line s r l : eatcomment 0 line (47 :: 42 :: s) = Ok (r, l) <->
  exists c, 47 :: 42 :: s = c ++ r /\ comment c /\ l = line + newlines c.
Proof. apply eatcomment_iff. Qed.
Print Assumptions C22_comment.
(* The comment is determined by the text. *)
Theorem C22_unique c1 r1 c2 r2 : comment c1 -> comment c2 -> c1 ++ r1 = c2 ++ r2 -> c1 = c2.
Proof.
  assert (X : forall c r, comment c -> eatcomment 0 0 (c ++ r) = Ok (r, 0 + newlines c)).
  { intros c r C. destruct (comment_start _ C) as (s & ->). cbn [app]. apply eatcomment_iff. exists (47 :: 42 :: s). auto. }
  intros C1 C2 E. pose proof (X c1 r1 C1) as A. rewrite E, (X c2 r2 C2) in A. injection A as A _. subst r2. apply app_inv_tail in E. exact E.
Qed.
Print Assumptions C22_unique.
(* Comments, spaces, and newlines after a backslash change nothing but the line number. *)
Theorem C22_blank ad line b r : blank false b false r -> toknext ad line (b ++ r) = toknext ad (line + newlines b) r.
Proof. apply toknext_blank. Qed.
Print Assumptions C22_blank.
(* The byte 0xff in a comment is taken for the end of the file. *)
Theorem C22_ff_refuted : exists c, c < 256 /\ ~ (c = 47 \/ c = 42) /\
  eatcomment 0 1 (bytes "/*" ++ [c] ++ bytes "*/") = Fatal.
Proof. exists 255. repeat split; try lia; vm_compute; reflexivity. Qed.
Print Assumptions C22_ff_refuted.

Definition nested : text := bytes "/* a /* b " ++ [10] ++ bytes "*/ **//".
Example C22_ex1 : eatcomment 0 5 (nested ++ bytes "x") = Ok (bytes "/x", 6).
Proof. vm_compute. reflexivity. Qed.
Example C22_ex2 : toknext false 1 (bytes "/*/**/" ++ [10] ++ bytes "*/ \" ++ [10] ++ bytes "x;") = Ok (Word Tident (bytes "x"), 3, bytes ";", 3).
Proof. vm_compute. reflexivity. Qed.

(* ================= C58: operators ================= *)

(* A text that starts with no word, literal, comment or blank is read as the longest operator it
   starts with, or is an error if it starts with none. *)
Definition plain (s : text) : Prop := match s with
  | [] => False
  | c :: _ => c <> 255 /\ c <> 10 /\ isspace c = false /\ c <> 92 /\ ~ word_char c /\ c <> 34 /\ c <> 39 /\ c <> 64 /\
              two 47 42 s = false /\ two 47 47 s = false end.
Lemma toknext_plain ad line s : plain s -> toknext ad line s = match oper s with Some (t, r) => Ok (Op t, line, r, line) | None => Fatal end.
Proof.
  destruct s as [|c s]; [intros []|]. intros (A1 & A2 & A3 & A4 & A5 & A6 & A7 & A8 & T1 & T2).
  rewrite toknext_solid.
  - cbn [token]. apply N.eqb_neq in A1, A2, A6, A7, A8. unfold word_char, word_start, letter, digit in A5.
    rewrite A1, A2, A6, A7, A8. replace (isalpha c || (c =? 95) || (c =? 36)) with false by (unfold isalpha; lia).
    replace (isdigit c) with false by (unfold isdigit; lia). reflexivity.
  - right. auto.
Qed.
Theorem C58_longest ad line s t l r l' : plain s ->
  toknext ad line s = Ok (Op t, l, r, l') <-> (l = line /\ l' = line /\ exists sp, longest_operator s sp t /\ s = sp ++ r).
Proof.
  intros P. rewrite (toknext_plain ad line s P). split.
  - destruct (oper s) as [[t' r']|] eqn:O; [|discriminate]. intros E; injection E as <- <- <- <-. repeat split. apply oper_iff; auto.
  - intros (-> & -> & X). apply oper_iff in X. rewrite X. reflexivity.
Qed.
Print Assumptions C58_longest.
Theorem C58_junk ad line s : plain s ->
  toknext ad line s = Fatal <-> (forall sp t r, In (sp, t) operators -> s <> sp ++ r).
Proof.
  intros P. rewrite (toknext_plain ad line s P), <- oper_none. destruct (oper s) as [[t r]|]; split; congruence.
Qed.
Print Assumptions C58_junk.
Example C58_ex1 : toknext false 1 (bytes "<<=x") = Ok (Op Tbsleq, 1, bytes "x", 1) /\ toknext false 1 (bytes "..x") = Ok (Op Tdot, 1, bytes ".x", 1).
Proof. split; vm_compute; reflexivity. Qed.
Example C58_ex2 : plain (bytes "<<=x") /\ longest_operator (bytes "<<=x") (bytes "<<=") Tbsleq.
Proof.
  split; [unfold plain, word_char, word_start, letter, digit; cbn; repeat split; lia|].
  assert (O : oper (bytes "<<=x") = Some (Tbsleq, bytes "x")) by reflexivity. apply oper_iff in O as (sp & LO & E).
  enough (sp = bytes "<<=") by (subst; auto). change (bytes "<<=" ++ bytes "x" = sp ++ bytes "x") in E. apply app_inv_tail in E. auto.
Qed.

(* ================= C59: words ================= *)

(* A maximal run of letters, digits, underscores and dollars starting with no digit, shorter than
   1024 bytes, is one word: a keyword exactly if it is in the table, else an identifier. *)
Theorem C59_word ad line w r t : starts word_start w -> Forall word_char w -> (length w < 1024)%nat -> ~ starts word_char r ->
  toknext ad line (w ++ r) = Ok (Word t w, line, r, line) <-> word_type w t.
Proof.
  intros S F L N. split.
  - intros E. destruct (kwd_some w) as (t' & K). apply kwd_iff in K as WT.
    rewrite (toknext_word ad line w r t' S F L N WT) in E. injection E as <-. exact WT.
  - apply toknext_word; auto.
Qed.
Print Assumptions C59_word.
Theorem C59_type w : exists t, word_type w t /\ forall t', word_type w t' -> t' = t.
Proof. destruct (kwd_some w) as (t & K). exists t. split; [apply kwd_iff; auto|]. intros t' W. apply kwd_iff in W. congruence. Qed.
Print Assumptions C59_type.
(* A word of 1024 bytes or more makes the lexer write past the end of its buffer. *)
Theorem C59_long_refuted ad line w r : starts word_start w -> Forall word_char w -> (1024 <= length w)%nat -> toknext ad line (w ++ r) = Ub.
Proof. apply toknext_long. Qed.
Print Assumptions C59_long_refuted.
(* and that is the only access outside an array in the lexer *)
Theorem C59_only_long ad line s : toknext ad line s = Ub -> exists a w b, s = a ++ w ++ b /\ Forall word_char w /\ length w = 1024%nat.
Proof. apply toknext_never. Qed.
Print Assumptions C59_only_long.
Example C59_ex1 : toknext false 1 (bytes "while(") = Ok (Word Twhile (bytes "while"), 1, bytes "(", 1) /\
  toknext false 1 (bytes "while_1(") = Ok (Word Tident (bytes "while_1"), 1, bytes "(", 1).
Proof. split; vm_compute; reflexivity. Qed.
Example C59_ex2 : exists w, starts word_start w /\ Forall word_char w /\ (1024 <= length w)%nat.
Proof.
  exists (repeat 97 1024). split; [cbn; unfold word_start, letter; lia|]. split; [|rewrite repeat_length; lia].
  apply Forall_forall. intros x I. apply repeat_spec in I. subst. unfold word_char, word_start, letter. lia.
Qed.

(* ================= C60: the whole file ================= *)

(* The lexer always stops. *)
Theorem C60_stops s : lexfile s <> Fuel.
Proof.
  unfold lexfile. destruct s as [|c [|d [|e s]]]; try (apply lex_never; cbn; lia).
  destruct ((c =? 35) && (d =? 33)); [|apply lex_never; lia].
  destruct (skipline (c :: d :: e :: s)) as [s' l]. apply lex_never. lia.
Qed.
Print Assumptions C60_stops.
(* If it reads a file without the byte 0xff, then the file, after a first line starting with #!, is
   a sequence of blanks and tokens to its end, the tokens returned are those, and each has the
   number of the line it starts on (for newlines, of the line after). *)
Theorem C60_tokens s ts : Forall byte s -> ~ In 255 s -> lexfile s = Ok ts ->
  exists h t, s = h ++ t /\ tokens (1 + newlines h) t ts /\
    (h = [] \/ (exists h', h = bytes "#!" ++ h') /\ ((exists h', h = h' ++ [10] /\ ~ In 10 h') \/ (t = [] /\ ~ In 10 h))).
Proof.
  intros B N E. unfold lexfile in E.
  assert (PLAIN : lex (S (length s)) false 1 s = Ok ts -> exists h t, s = h ++ t /\ tokens (1 + newlines h) t ts /\
    (h = [] \/ (exists h', h = bytes "#!" ++ h') /\ ((exists h', h = h' ++ [10] /\ ~ In 10 h') \/ (t = [] /\ ~ In 10 h)))).
  { intros L. exists [], s. split; [reflexivity|]. split; [|auto]. eapply lex_sound; eauto. }
  destruct s as [|c [|d [|e s]]]; try (apply PLAIN; exact E).
  destruct ((c =? 35) && (d =? 33)) eqn:HB; [|apply PLAIN; exact E].
  apply andb_prop in HB as [HC HD]. apply N.eqb_eq in HC, HD. subst c d.
  destruct (skipline_spec (35 :: 33 :: e :: s)) as (h & EQ & LN & H). destruct (skipline (35 :: 33 :: e :: s)) as [s' l] eqn:SK. cbn [fst snd] in *.
  rewrite EQ in B, N. apply Forall_app in B as [_ B]. exists h, s'. split; [exact EQ|]. split.
  - rewrite <- LN. eapply lex_sound; eauto. intros X. apply N. apply in_or_app; auto.
  - right. split.
    + destruct H as [(h' & -> & _)|[-> _]].
      * destruct h' as [|x [|y h']].
        -- cbn in EQ. discriminate EQ.
        -- cbn in EQ. discriminate EQ.
        -- cbn in EQ. injection EQ as <- <- _. exists (h' ++ [10]). reflexivity.
      * rewrite app_nil_r in EQ. exists (e :: s). auto.
    + destruct H as [H|H]; auto.
Qed.
Print Assumptions C60_tokens.
(* The last token is the end of the file and the only one. *)
Theorem C60_eof line s ts : tokens line s ts -> exists ts' l, ts = ts' ++ [(Eof, l)] /\ l = line + newlines s /\ Forall (fun p => fst p <> Eof) ts'.
Proof.
  induction 1 as [line b k B|line b k t x r ts B D T (ts' & l & -> & -> & F)].
  - exists [], (line + newlines b). repeat split; auto.
  - eexists ((x, _) :: ts'), _. split; [reflexivity|]. split; [rewrite !newlines_app; lia|]. constructor; auto. cbn. inversion D; discriminate.
Qed.
Print Assumptions C60_eof.
(* With the byte 0xff, the rest of the file is silently ignored. *)
Theorem C60_truncation_refuted : exists s s', Forall byte s /\ lexfile s = lexfile s' /\ (exists ts, lexfile s = Ok ts) /\
  (length s' < length s)%nat /\ exists w, s = s' ++ [255] ++ w /\ lexfile w = Ok [(Word Tident (bytes "x"), 1); (Op Tinc, 1); (Eof, 1)].
Proof.
  exists (bytes "y;" ++ [255] ++ bytes "x++"), (bytes "y;"). split; [repeat constructor; unfold byte; lia|]. split; [vm_compute; reflexivity|].
  split; [eexists; vm_compute; reflexivity|]. split; [cbn; lia|]. exists (bytes "x++"). split; vm_compute; reflexivity.
Qed.
Print Assumptions C60_truncation_refuted.
Example C60_ex : lexfile (bytes "#!/bin/x" ++ [10] ++ bytes "f /* " ++ [10] ++ bytes "*/ = 3." ++ [10] ++ bytes "b.0") =
  Ok [(Word Tident (bytes "f"), 2); (Op Tasn, 3); (Flt (bytes "3."), 3); (Op Tendln, 4); (Word Tident (bytes "b"), 4); (Op Tdot, 4); (Int 0 None, 4); (Eof, 4)].
Proof. vm_compute. reflexivity. Qed.
Example C22_ex3 : blank false (bytes "/* */ ") false (bytes "x") /\ comment (bytes "/* */").
Proof.
  assert (C : comment (bytes "/* */")).
  { exists [Cbyte 32]. split; [repeat constructor|]. apply (rd_open _ [Cbyte 32; Cclose]). apply rd_byte; [apply not_pair; lia|lia|]. apply rd_close. constructor. }
  split; [|exact C]. apply (bl_comment false false (bytes "/* */") (bytes " ")); [exact C|]. apply bl_space; [left; reflexivity|constructor].
Qed.
