From Verif Require Import Base Utf_Spec Tok_Model Tok_Spec Tok_Proofs Tok_Oper Tok_Word Tok_Num Tok_Str.
From Coq Require Import ZifyBool ZifyN ZifyNat Lia.
Local Open Scope N_scope.
Local Open Scope list_scope.

Lemma eatspace_solid line s : solid false s -> eatspace (S (length s)) false line s = Ok (s, line).
Proof.
  intros S. rewrite eatspace_eq. destruct s as [|c s]; [reflexivity|]. cbn in S.
  destruct (N.eqb_spec c 10); [reflexivity|].
  destruct S as [[? _]|(N10 & N92 & SP & T1 & T2)]; [congruence|].
  apply N.eqb_neq in N92. rewrite N92, SP. cbn [two] in *. rewrite T1, T2. reflexivity.
Qed.
Lemma toknext_blank ad line b r : blank false b false r -> toknext ad line (b ++ r) = toknext ad (line + newlines b) r.
Proof.
  intros B. unfold toknext. rewrite (eatspace_complete false b false r B line (S (length (b ++ r))) (S (length r))) by lia. reflexivity.
Qed.
(* toknext on a text that starts with a token *)
Definition token (ad : bool) (line : N) (s : text) : res (tok * N * text * N) :=
  match s with
  | [] => Ok (Eof, line, s, line)
  | c :: s1 =>
      if c =? 255 then Ok (Eof, line, s, line)
      else if c =? 10 then Ok (Op Tendln, line + 1, s1, line + 1)
      else if isalpha c || (c =? 95) || (c =? 36) then
        match identstr 1024 s with
        | Ok (id, r) => match kwd id with Some t => Ok (Word t id, line, r, line) | None => Fuel end
        | Fatal => Fatal | Ub => Ub | Fuel => Fuel
        end
      else if c =? 34 then
        match strlit (S (length s1)) s1 with
        | Ok (b, r) => Ok (Str b, line, r, line) | Fatal => Fatal | Ub => Ub | Fuel => Fuel
        end
      else if c =? 39 then
        match charlit s1 with
        | Ok (v, r) => Ok (Chr v, line, r, line) | Fatal => Fatal | Ub => Ub | Fuel => Fuel
        end
      else if isdigit c then
        match numlit (negb ad) s with
        | Ok (t, r) => Ok (t, line, r, line) | Fatal => Fatal | Ub => Ub | Fuel => Fuel
        end
      else if c =? 64 then
        match identstr 1024 s1 with
        | Ok ([], r) => Fatal
        | Ok (id, r) => Ok (Typaram id, line, r, line)
        | Fatal => Fatal | Ub => Ub | Fuel => Fuel
        end
      else match oper s with Some (t, r) => Ok (Op t, line, r, line) | None => Fatal end
  end.
Lemma toknext_token ad line s : toknext ad line s =
  match eatspace (S (length s)) false line s with
  | Fatal => Fatal | Ub => Ub | Fuel => Fuel | Ok (s, line) => token ad line s
  end.
Proof.
  unfold toknext. destruct (eatspace (S (length s)) false line s) as [[s' l']| | |]; try reflexivity.
  unfold token, atend. destruct s' as [|c s1]; [reflexivity|]. destruct (c =? 255); reflexivity.
Qed.
Lemma toknext_solid ad line s : solid false s -> toknext ad line s = token ad line s.
Proof. intros S. rewrite toknext_token, (eatspace_solid line s S). reflexivity. Qed.

Lemma solid_char c s : isspace c = false -> c <> 92 -> c <> 47 -> solid false (c :: s).
Proof.
  intros A B C. right. unfold isspace in A. repeat split; auto; try lia; unfold two; destruct s; auto; apply N.eqb_neq in C; rewrite C; reflexivity.
Qed.

(* ---- completeness, token by token ---- *)
Lemma word_start_not c : word_start c -> isspace c = false /\ c <> 92 /\ c <> 47 /\ c <> 10 /\ c <> 255 /\ isalpha c || (c =? 95) || (c =? 36) = true.
Proof. unfold word_start, letter, isspace, isalpha. lia. Qed.
Lemma toknext_word ad line w r t : starts word_start w -> Forall word_char w -> (length w < 1024)%nat -> ~ starts word_char r ->
  word_type w t -> toknext ad line (w ++ r) = Ok (Word t w, line, r, line).
Proof.
  intros SW F L NS WT. destruct w as [|c w]; [destruct SW|]. cbn in SW. destruct (word_start_not c SW) as (A1 & A2 & A3 & A4 & A5 & A6).
  rewrite toknext_solid by (apply solid_char; auto). cbn [app token]. apply N.eqb_neq in A4, A5. rewrite A4, A5, A6.
  change (c :: w ++ r) with ((c :: w) ++ r). unfold identstr. rewrite (identscan_word 1024 (c :: w) r F L NS).
  destruct (Nat.ltb_spec (length (c :: w)) 1024); [|lia]. apply kwd_iff in WT. rewrite WT. reflexivity.
Qed.
Lemma toknext_long ad line w r : starts word_start w -> Forall word_char w -> (1024 <= length w)%nat ->
  toknext ad line (w ++ r) = Ub.
Proof.
  intros SW F L. destruct w as [|c w]; [destruct SW|]. cbn in SW. destruct (word_start_not c SW) as (A1 & A2 & A3 & A4 & A5 & A6).
  rewrite toknext_solid by (apply solid_char; auto). cbn [app token]. apply N.eqb_neq in A4, A5. rewrite A4, A5, A6.
  change (c :: w ++ r) with ((c :: w) ++ r). unfold identstr. pose proof (identscan_long 1024 (c :: w) r F L) as H.
  destruct (identscan 1024 ((c :: w) ++ r)) as [id r']. cbn [fst] in H. rewrite H. reflexivity.
Qed.
Lemma digit_not c : digit c -> isspace c = false /\ c <> 92 /\ c <> 47 /\ c <> 10 /\ c <> 255 /\ isalpha c || (c =? 95) || (c =? 36) = false /\
  c <> 34 /\ c <> 39 /\ isdigit c = true.
Proof. unfold digit, isspace, isalpha, isdigit. lia. Qed.
Lemma token_digit ad line s : starts digit s -> toknext ad line s =
  match numlit (negb ad) s with Ok (t, r) => Ok (t, line, r, line) | Fatal => Fatal | Ub => Ub | Fuel => Fuel end.
Proof.
  destruct s as [|c s]; [intros []|]. cbn. intros D. destruct (digit_not c D) as (A1 & A2 & A3 & A4 & A5 & A6 & A7 & A8 & A9).
  rewrite toknext_solid by (apply solid_char; auto). cbn [token]. apply N.eqb_neq in A4, A5, A7, A8. rewrite A4, A5, A6, A7, A8, A9. reflexivity.
Qed.
Lemma literal_digit p t sx base ds ty : literal p t sx base ds ty -> starts digit (p ++ t).
Proof.
  intros (P & S & NE & IS & T). destruct P; try (cbn; unfold digit; lia). cbn [app]. auto.
Qed.
Lemma toknext_int ad line p t sx base ds ty r : literal p t sx base ds ty -> (length ds <= 2047)%nat ->
  ~ In (hd 0 sx) [98; 66] -> (sx = [] -> ends (negb ad) r) ->
  toknext ad line (p ++ t ++ sx ++ r) = Ok (Int (N.min (value base 0 ds) (2 ^ 64 - 1)) ty, line, r, line).
Proof.
  intros L N B E. rewrite token_digit.
  - rewrite (numlit_complete _ p t sx base ds ty r L N B E). reflexivity.
  - apply literal_digit in L. rewrite app_assoc. destruct (p ++ t); [destruct L|exact L].
Qed.
Lemma toknext_str ad line t b r : spells t b -> toknext ad line (34 :: t ++ 34 :: r) = Ok (Str b, line, r, line).
Proof.
  intros S. rewrite toknext_solid by (apply solid_char; [reflexivity|lia|lia]). cbn [token N.eqb Pos.eqb]. cbn [isalpha orb].
  change (isalpha 34) with false. cbn [orb]. rewrite (strlit_complete t b S) by lia. reflexivity.
Qed.
Lemma toknext_chr ad line t v r : Forall byte (t ++ 39 :: r) -> charform t v -> toknext ad line (39 :: t ++ 39 :: r) = Ok (Chr v, line, r, line).
Proof.
  intros B C. rewrite toknext_solid by (apply solid_char; [reflexivity|lia|lia]). cbn [token N.eqb Pos.eqb].
  change (isalpha 39) with false. cbn [orb]. rewrite (proj2 (charlit_iff _ v r B)) by eauto. reflexivity.
Qed.

(* ---- soundness ---- *)
Lemma identscan_nonempty n c s id r : identchar c = true -> identscan (S n) (c :: s) = (id, r) -> id <> [].
Proof. intros C. cbn [identscan]. rewrite C. destruct (identscan n s). intros E. injection E as <- <-. discriminate. Qed.
Lemma not_newline t : t <> [10] -> is_newline t = false.
Proof. intros N. unfold is_newline. destruct t as [|c [|d t]]; auto. apply N.eqb_neq. congruence. Qed.
Lemma toknext_sound ad line s x l r line' : Forall byte s -> ~ In 255 s -> toknext ad line s = Ok (x, l, r, line') ->
  (x = Eof /\ l = line + newlines s /\ exists k, blank false s k []) \/
  (exists b k t, s = b ++ t ++ r /\ blank false b k (t ++ r) /\ denotes x t /\ t <> [] /\
     l = token_line (line + newlines b) t /\ line' = (if is_newline t then line + newlines b + 1 else line + newlines b)).
Proof.
  intros BY NF E. rewrite toknext_token in E.
  destruct (eatspace (S (length s)) false line s) as [[s' l']| | |] eqn:ES; try discriminate.
  destruct (eatspace_sound (length s) _ _ _ _ _ _ (Nat.le_refl _) NF ES) as (b & k & -> & B & -> & SO).
  apply Forall_app in BY as [_ BY]. assert (NF' : ~ In 255 s') by (intros ?; apply NF; apply in_or_app; auto). clear NF ES.
  destruct s' as [|c s1].
  { left. cbn in E. injection E as <- <- _ _. rewrite app_nil_r. eauto. }
  right. exists b, k. cbn [token] in E. inversion BY as [|? ? BC BS]; subst.
  destruct (N.eqb_spec c 255) as [->|_]; [destruct NF'; left; auto|].
  assert (FIN : forall t, c :: s1 = t ++ r -> denotes x t -> is_newline t = false -> t <> [] -> l = line + newlines b -> line' = line + newlines b ->
    exists t, b ++ c :: s1 = b ++ t ++ r /\ blank false b k (t ++ r) /\ denotes x t /\ t <> [] /\ l = token_line (line + newlines b) t /\
      line' = (if is_newline t then line + newlines b + 1 else line + newlines b)).
  { intros t E1 D NT NE -> ->. exists t. rewrite <- E1. repeat split; auto.
    - unfold token_line. rewrite NT. reflexivity.
    - rewrite NT. reflexivity. }
  destruct (N.eqb_spec c 10) as [->|N10].
  { injection E as <- <- <- <-. exists [10]. repeat split; auto; [constructor|discriminate]. }
  destruct (isalpha c || (c =? 95) || (c =? 36)) eqn:AL.
  { unfold identstr in E. destruct (identscan 1024 (c :: s1)) as [id r1] eqn:ID. destruct (Nat.ltb_spec (length id) 1024); [|discriminate].
    destruct (kwd id) as [t|] eqn:K; [|discriminate]. injection E as <- <- <- <-.
    destruct (identscan_spec 1024 _ id r1 ID) as (EQ & F & _ & _).
    assert (SW : starts word_start id).
    { destruct id as [|x id]; [|cbn in EQ; injection EQ as -> _; cbn; unfold word_start, letter; unfold isalpha in AL; lia].
      exfalso. apply (identscan_nonempty 1023 c s1 [] r1); auto. unfold identchar, isalnum; lia. }
    apply (FIN id); auto; [constructor; auto; apply kwd_iff; auto|apply not_newline|].
    - intros ->. inversion F as [|? ? W]; subst. unfold word_char, word_start, letter, digit in W. lia.
    - intros ->. destruct SW. }
  destruct (N.eqb_spec c 34) as [->|N34].
  { destruct (strlit (S (length s1)) s1) as [[b' r']| | |] eqn:ST; try discriminate. injection E as <- <- <- <-.
    destruct (strlit_sound _ _ _ _ ST) as (t & -> & SP). apply (FIN (34 :: t ++ [34])); auto; try discriminate; [cbn; rewrite <- app_assoc; reflexivity|constructor; auto|apply not_newline; discriminate]. }
  destruct (N.eqb_spec c 39) as [->|N39].
  { destruct (charlit s1) as [[v r']| | |] eqn:ST; try discriminate. injection E as <- <- <- <-.
    apply (charlit_iff s1 v r' BS) in ST as (t & C & ->). apply (FIN (39 :: t ++ [39])); auto; try discriminate; [cbn; rewrite <- app_assoc; reflexivity|constructor; auto|apply not_newline; discriminate]. }
  destruct (isdigit c) eqn:D.
  { pose proof (numlit_kinds (negb ad) (c :: s1)) as K. assert (SD : starts digit (c :: s1)) by (cbn; apply isdigit_iff; auto).
    destruct (numlit (negb ad) (c :: s1)) as [[x' r']| | |] eqn:NL; try discriminate. injection E as <- <- <- <-.
    destruct x'; try destruct K.
    - destruct (numlit_sound _ _ _ _ _ SD NL) as (p & t' & sx & base & ds & EQ & LIT & -> & _).
      pose proof (literal_digit _ _ _ _ _ _ LIT) as LD.
      apply (FIN (p ++ t' ++ sx)); auto.
      + rewrite EQ, <- !app_assoc. reflexivity.
      + constructor; auto.
      + apply not_newline. rewrite app_assoc. destruct (p ++ t') as [|y z]; [destruct LD|]. cbn in LD |- *. intros EE; injection EE as -> _. unfold digit in LD; lia.
      + rewrite app_assoc. destruct (p ++ t') as [|y z]; [destruct LD|discriminate].
    - destruct (numlit_flt _ _ _ _ SD NL) as (t' & EQ & -> & ST & F & I).
      apply (FIN t'); auto; [constructor; auto|apply not_newline|].
      + intros ->. cbn in ST. unfold digit in ST. lia.
      + intros ->. destruct ST. }
  destruct (N.eqb_spec c 64) as [->|N64].
  { unfold identstr in E. destruct (identscan 1024 s1) as [id r1] eqn:ID. destruct (Nat.ltb_spec (length id) 1024); [|discriminate].
    destruct (identscan_spec 1024 _ id r1 ID) as (EQ & F & _ & _).
    destruct id as [|y id]; [discriminate|]. injection E as <- <- <- <-.
    apply (FIN (64 :: y :: id)); auto; try discriminate; [cbn; rewrite EQ; reflexivity|constructor; [discriminate|auto]]. }
  destruct (oper (c :: s1)) as [[t r']|] eqn:O; [|discriminate]. injection E as <- <- <- <-.
  apply oper_iff in O as (sp & (I & _ & _) & EQ). apply (FIN sp); auto; [constructor; auto|apply not_newline|].
  - intros ->. injection EQ; congruence.
  - intros ->. revert I. rewrite operators_ops. unfold ops. clear. intros I. repeat (destruct I as [I|I]; [discriminate I|]). destruct I.
Qed.

Lemma escape_no10 e v b : escape e v b -> ~ In 10 e.
Proof.
  assert (DV : forall c d, digit_value c d -> c <> 10) by (unfold digit_value; lia).
  destruct 1 as [c v I|c d x y X Y|t ds v H -> L].
  - unfold simple_escapes in I. cbn [In] in *. intros [E|[]]. subst c.
    repeat (destruct I as [I|I]; [discriminate I|]). destruct I.
  - apply DV in X, Y. cbn [In]. intros [E|[E|[E|[]]]]; congruence.
  - cbn [In]. intros [E|[E|E]]; try discriminate. apply in_app_or in E as [E|[E|[]]]; [|discriminate].
    revert E. induction H as [|c d t ds D H IH]; [intros []|]. intros [E|E]; [apply DV in D; congruence|].
    apply IH; auto. cbn [value] in L. clear - L. enough (forall ds a b, a <= b -> value 16 a ds <= value 16 b ds) as M by (pose proof (M ds 0 (16 * 0 + d) ltac:(lia)); lia).
    induction ds0 as [|z ds0 IH]; intros a b A; cbn [value]; [lia|]. apply IH. lia.
Qed.
Lemma spelt_no10 base t ds : spelt base t ds -> ~ In 10 t.
Proof.
  induction 1 as [|t ds S IH|c d t ds D B S IH]; cbn [In]; [tauto| |]; intros [E|E]; try tauto; [discriminate|].
  subst c. unfold digit_value in D. lia.
Qed.
Lemma denotes_newlines x t : denotes x t -> newlines t = if is_newline t then 1 else 0.
Proof.
  intros D. assert (X : t = [10] \/ ~ In 10 t).
  { destruct D as [|sp t I|w t SW F WT|t b S|t v C|p t sx base ds ty L|t SD I F|w NE F]; auto; right.
    - revert I. rewrite operators_ops. unfold ops. clear. intros I.
      repeat (destruct I as [I|I]; [injection I as <- <-; cbn [In]; intros X; repeat (destruct X as [X|X]; [discriminate X|]); destruct X|]). destruct I.
    - intros I. rewrite Forall_forall in F. apply F in I. unfold word_char, word_start, letter, digit in I. lia.
    - assert (N : ~ In 10 t).
      { induction S as [|c t b N1 N2 N3 N4 S IH|e v x t b ES S IH]; [intros []| |].
        - intros [E|E]; [congruence|tauto].
        - intros [E|E]; [discriminate|]. apply in_app_or in E as [E|E]; [apply (escape_no10 _ _ _ ES E)|tauto]. }
      intros [E|E]; [discriminate|]. apply in_app_or in E as [E|[E|[]]]; [tauto|discriminate].
    - assert (N : ~ In 10 t).
      { destruct C as [t v U N10 N92|e v b ES].
        - destruct U; cbn [In]; intros X; [|lia|lia|lia]. destruct X as [->|[]]. congruence.
        - intros [E|E]; [discriminate|]. apply (escape_no10 _ _ _ ES E). }
      intros [E|E]; [discriminate|]. apply in_app_or in E as [E|[E|[]]]; [tauto|discriminate].
    - destruct L as (P & S & NE & IS & T). intros E. apply in_app_or in E as [E|E].
      + destruct P; cbn in E; repeat (destruct E as [E|E]; [discriminate E|]); destruct E.
      + apply in_app_or in E as [E|E]; [apply (spelt_no10 _ _ _ S E)|].
        assert (SZ : forall ty, ~ In (10, ty) sizes) by (unfold sizes; cbn [In]; intros ty' X; repeat (destruct X as [X|X]; [discriminate X|]); destruct X).
        destruct IS as [|c ty I|u c ty U I]; cbn [In] in E; [destruct E| |].
        * destruct E as [->|[]]. apply (SZ _ I).
        * destruct E as [->|[->|[]]]; [lia|apply (SZ _ I)].
    - intros E. rewrite Forall_forall in F. apply F in E. destruct E as [E|E]; [unfold digit in E; lia|].
      cbn in E. repeat (destruct E as [E|E]; [discriminate E|]). destruct E.
    - intros [E|E]; [discriminate|]. rewrite Forall_forall in F. apply F in E. unfold word_char, word_start, letter, digit in E. lia. }
  destruct X as [->|N]; [reflexivity|]. rewrite newlines_0 by auto. rewrite not_newline; [reflexivity|]. intros ->. apply N. left; auto.
Qed.

Lemma lex_sound fuel : forall ad line s ts, Forall byte s -> ~ In 255 s -> lex fuel ad line s = Ok ts -> tokens line s ts.
Proof.
  induction fuel as [|fuel IH]; intros ad line s ts BY NF E; cbn [lex] in E; [discriminate|].
  destruct (toknext ad line s) as [[[[x l] r] line']| | |] eqn:T; try discriminate.
  destruct (toknext_sound _ _ _ _ _ _ _ BY NF T) as [(-> & -> & k & B)|(b & k & t & -> & B & D & NE & -> & EL)].
  - injection E as <-. econstructor; eauto.
  - assert (BR : Forall byte r) by (apply Forall_app in BY as [_ BY]; apply Forall_app in BY as [_ BY]; exact BY).
    assert (NR : ~ In 255 r) by (intros ?; apply NF; apply in_or_app; right; apply in_or_app; auto).
    assert (X : match lex fuel (isdot x) line' r with Ok ts0 => Ok ((x, token_line (line + newlines b) t) :: ts0) | y => y end = Ok ts).
    { destruct x; auto. inversion D. }
    destruct (lex fuel (isdot x) line' r) as [ts'| | |] eqn:L; try discriminate. injection X as <-.
    econstructor; eauto. assert (LE : line' = line + newlines b + newlines t).
    { rewrite EL, (denotes_newlines _ _ D). destruct (is_newline t); lia. }
    rewrite <- LE. eapply IH; eauto.
Qed.

(* ---- termination ---- *)
Lemma eatspace_len n : forall fuel k line s r l, (length s <= n)%nat -> eatspace fuel k line s = Ok (r, l) -> (length r <= length s)%nat.
Proof.
  induction n as [|n IH]; intros fuel k line s r l L E; (destruct fuel as [|fuel]; [discriminate|]); rewrite eatspace_eq in E.
  - destruct s; [|cbn in L; lia]. injection E as <- <-. lia.
  - destruct s as [|c s1]; [injection E as <- <-; lia|]. cbn [length] in L |- *.
    assert (REC : forall k line s' , (length s' <= length s1)%nat -> eatspace fuel k line s' = Ok (r, l) -> (length r <= S (length s1))%nat).
    { intros k' line' s' L' E'. apply IH in E'; lia. }
    destruct (c =? 10); [destruct k; [eapply REC; [|exact E]; lia|injection E as <- <-; cbn; lia]|].
    destruct (c =? 92); [eapply REC; [|exact E]; lia|]. destruct (isspace c); [eapply REC; [|exact E]; lia|].
    destruct (two 47 42 (c :: s1)) eqn:T.
    + apply two_true in T as (s2 & ET). injection ET as -> ->.
      destruct (eatcomment 0 line (47 :: 42 :: s2)) as [[s' l']| | |] eqn:EC; try discriminate.
      apply eatcomment_iff in EC as (c & EQ & C & ->). pose proof (comment_len _ C) as LC. apply (f_equal (@length N)) in EQ.
      rewrite app_length in EQ. cbn [length] in EQ, REC |- *. eapply REC; [|exact E]. lia.
    + destruct (two 47 47 (c :: s1)) eqn:T2; [|injection E as <- <-; cbn; lia].
      apply two_true in T2 as (s2 & ET). injection ET as -> ->. cbn [eatline] in E. cbn [N.eqb Pos.eqb orb] in E. pose proof (eatline_len s2).
      cbn [length] in REC |- *. eapply REC; [|exact E]. lia.
Qed.
Lemma utfcont_len n : forall v s v' r, utfcont n v s = Ok (v', r) -> (length r <= length s)%nat.
Proof.
  induction n as [|n IH]; intros v s v' r; [cbn; intros E; injection E as <- <-; lia|].
  rewrite utfcont_S. destruct s as [|c s]; [discriminate|]. destruct (_ =? _); [|discriminate]. intros E. apply IH in E. cbn. lia.
Qed.
Lemma charlit_len s v r : charlit s = Ok (v, r) -> (length r <= length s)%nat.
Proof.
  unfold charlit. destruct s as [|c s]; [discriminate|]. destruct (c =? 255); [discriminate|]. destruct (c =? 10); [discriminate|].
  destruct (c =? 92).
  - destruct (decode s) as [[[v' b] s1]| | |] eqn:D; try discriminate. destruct (mtch 39 s1) as [s2|] eqn:M; [|discriminate].
    apply mtch_some in M as ->. intros E; injection E as <- <-. destruct (decode_sound _ _ _ _ D) as (e & _ & ->). cbn [length]. rewrite app_length. cbn. lia.
  - rewrite readutf_form. destruct (form c) as [[n v1]|]; [|discriminate]. destruct (utfcont n v1 s) as [[v2 s1]| | |] eqn:U; try discriminate.
    destruct (mtch 39 s1) as [s2|] eqn:M; [|discriminate]. apply mtch_some in M as ->. intros E; injection E as <- <-.
    apply utfcont_len in U. cbn [length] in *. lia.
Qed.
Lemma operators_nonempty sp t : In (sp, t) operators -> (1 <= length sp)%nat.
Proof.
  rewrite operators_ops. unfold ops. intros I. repeat (destruct I as [I|I]; [injection I as <- <-; cbn; lia|]). destruct I.
Qed.
Lemma token_progress ad line s x l r line' : token ad line s = Ok (x, l, r, line') -> x = Eof \/ (length r < length s)%nat.
Proof.
  destruct s as [|c s1]; cbn [token]; [intros E; injection E; auto|].
  destruct (c =? 255); [intros E; injection E; auto|].
  destruct (c =? 10); [intros E; injection E as <- <- <- <-; right; cbn; lia|].
  destruct (isalpha c || (c =? 95) || (c =? 36)) eqn:AL.
  { unfold identstr. destruct (identscan 1024 (c :: s1)) as [id r1] eqn:ID. destruct (Nat.ltb_spec (length id) 1024); [|discriminate].
    destruct (kwd id) as [t|] eqn:K; [|discriminate]. intros E; injection E as <- <- <- <-. right.
    destruct (identscan_spec 1024 _ id r1 ID) as (EQ & F & _ & _). rewrite EQ, app_length.
    destruct id as [|x id]; [|cbn; lia]. exfalso. apply (identscan_nonempty 1023 c s1 [] r1); auto. unfold identchar, isalnum; lia. }
  destruct (c =? 34).
  { destruct (strlit (S (length s1)) s1) as [[b' r']| | |] eqn:ST; try discriminate. intros E; injection E as <- <- <- <-. right.
    destruct (strlit_sound _ _ _ _ ST) as (t & -> & _). cbn [length]. rewrite app_length. cbn. lia. }
  destruct (c =? 39).
  { destruct (charlit s1) as [[b' r']| | |] eqn:ST; try discriminate. intros E; injection E as <- <- <- <-. right. apply charlit_len in ST. cbn. lia. }
  destruct (isdigit c) eqn:D.
  { pose proof (numlit_kinds (negb ad) (c :: s1)) as K. assert (SD : starts digit (c :: s1)) by (cbn; apply isdigit_iff; auto).
    destruct (numlit (negb ad) (c :: s1)) as [[x' r']| | |] eqn:NL; try discriminate. intros E; injection E as <- <- <- <-. right.
    destruct x'; try destruct K.
    - destruct (numlit_sound _ _ _ _ _ SD NL) as (p & t' & sx & base & ds & EQ & LIT & -> & _).
      pose proof (literal_digit _ _ _ _ _ _ LIT) as LD. rewrite EQ, app_assoc, !app_length. rewrite <- (app_length p t').
      destruct (p ++ t') as [|y z]; [destruct LD|]. cbn [length]. lia.
    - destruct (numlit_flt _ _ _ _ SD NL) as (t' & EQ & -> & ST & _). rewrite EQ, app_length. destruct t'; [destruct ST|cbn; lia]. }
  destruct (c =? 64).
  { unfold identstr. destruct (identscan 1024 s1) as [id r1] eqn:ID. destruct (Nat.ltb_spec (length id) 1024); [|discriminate].
    destruct (identscan_spec 1024 _ id r1 ID) as (EQ & F & _ & _).
    destruct id as [|y id]; [discriminate|]. intros E; injection E as <- <- <- <-. right. cbn [length]. rewrite EQ, app_length. cbn. lia. }
  destruct (oper (c :: s1)) as [[t r']|] eqn:O; [|discriminate]. intros E; injection E as <- <- <- <-. right.
  apply oper_iff in O as (sp & (I & _ & _) & EQ). rewrite EQ, app_length. apply operators_nonempty in I. lia.
Qed.
Lemma token_never ad line s : token ad line s <> Fuel /\
  (token ad line s = Ub -> exists a w b, s = a ++ w ++ b /\ Forall word_char w /\ length w = 1024%nat).
Proof.
  destruct s as [|c s1]; cbn [token]; [split; discriminate|].
  destruct (c =? 255); [split; discriminate|]. destruct (c =? 10); [split; discriminate|].
  assert (LONG : forall id r1 pre s, identscan 1024 s = (id, r1) -> (1024 <= length id)%nat ->
     exists a w b, pre ++ s = a ++ w ++ b /\ Forall word_char w /\ length w = 1024%nat).
  { intros id r1 pre s E L. destruct (identscan_spec 1024 s id r1 E) as (-> & F & LE & _). exists pre, id, r1. repeat split; auto. lia. }
  destruct (isalpha c || (c =? 95) || (c =? 36)).
  { unfold identstr. destruct (identscan 1024 (c :: s1)) as [id r1] eqn:ID. destruct (Nat.ltb_spec (length id) 1024).
    - destruct (kwd_some id) as (t & ->). split; discriminate.
    - split; [discriminate|]. intros _. exact (LONG id r1 [] (c :: s1) ID H). }
  destruct (c =? 34).
  { pose proof (strlit_never (S (length s1)) s1 ltac:(lia)) as H. destruct (strlit (S (length s1)) s1) as [[b' r']| | |]; try destruct H; split; discriminate. }
  destruct (c =? 39).
  { pose proof (charlit_never s1) as H. destruct (charlit s1) as [[b' r']| | |]; try destruct H; split; discriminate. }
  destruct (isdigit c).
  { pose proof (numlit_kinds (negb ad) (c :: s1)) as H. destruct (numlit (negb ad) (c :: s1)) as [[b' r']| | |]; try destruct H; split; discriminate. }
  destruct (c =? 64).
  { unfold identstr. destruct (identscan 1024 s1) as [id r1] eqn:ID. destruct (Nat.ltb_spec (length id) 1024).
    - destruct id; split; discriminate.
    - split; [discriminate|]. intros _. exact (LONG id r1 [c] s1 ID H). }
  destruct (oper (c :: s1)) as [[? ?]|]; split; discriminate.
Qed.
Lemma eatcomment_suffix n : forall d line s r l, (length s <= n)%nat -> eatcomment d line s = Ok (r, l) -> exists b, s = b ++ r.
Proof.
  induction n as [|n IH]; intros d line s r l L E.
  - destruct s; [discriminate|cbn in L; lia].
  - destruct s as [|c s1]; [discriminate|]. cbn [length] in L.
    assert (ONE : forall d line, eatcomment d line s1 = Ok (r, l) -> exists b, c :: s1 = b ++ r).
    { intros d' line' E'. destruct (IH d' line' s1 r l ltac:(lia) E') as (b & ->). exists (c :: b). reflexivity. }
    assert (TWO : forall x s2 d line, s1 = x :: s2 -> eatcomment d line s2 = Ok (r, l) -> exists b, c :: s1 = b ++ r).
    { intros x s2 d' line' -> E'. cbn [length] in L. destruct (IH d' line' s2 r l ltac:(lia) E') as (b & ->). exists (c :: x :: b). reflexivity. }
    cbn [eatcomment] in E. destruct s1 as [|x s2].
    + repeat match type of E with context [if ?b then _ else _] => destruct b end; try discriminate; try (injection E as <- <-; exists [c]; reflexivity); eauto.
    + repeat match type of E with context [if ?b then _ else _] => destruct b end; try discriminate;
        try (injection E as <- <-; first [exists [c]; reflexivity|exists [c; x]; reflexivity]); eauto.
Qed.
Lemma eatspace_suffix n : forall fuel k line s r l, (length s <= n)%nat -> eatspace fuel k line s = Ok (r, l) -> exists b, s = b ++ r.
Proof.
  induction n as [|n IH]; intros fuel k line s r l L E; (destruct fuel as [|fuel]; [discriminate|]); rewrite eatspace_eq in E.
  - destruct s; [|cbn in L; lia]. injection E as <- <-. exists []; reflexivity.
  - destruct s as [|c s1]; [injection E as <- <-; exists []; reflexivity|]. cbn [length] in L.
    assert (REC : forall k line p s', c :: s1 = p ++ s' -> (length s' <= length s1)%nat -> eatspace fuel k line s' = Ok (r, l) -> exists b, c :: s1 = b ++ r).
    { intros k' line' p s' EQ L' E'. destruct (IH fuel k' line' s' r l ltac:(lia) E') as (b & ->). exists (p ++ b). rewrite EQ. apply app_assoc. }
    destruct (c =? 10); [destruct k; [apply (REC false (line + 1) [c] s1); auto|injection E as <- <-; exists []; reflexivity]|].
    destruct (c =? 92); [apply (REC true line [c] s1); auto|]. destruct (isspace c); [apply (REC k line [c] s1); auto|].
    destruct (two 47 42 (c :: s1)) eqn:T.
    + apply two_true in T as (s2 & ET). injection ET as -> ->.
      destruct (eatcomment 0 line (47 :: 42 :: s2)) as [[s' l']| | |] eqn:EC; try discriminate.
      apply eatcomment_iff in EC as (c & EQ & C & ->). pose proof (comment_len _ C) as LC.
      apply (REC k (line + newlines c) c s'); auto. apply (f_equal (@length N)) in EQ. rewrite app_length in EQ. cbn [length] in *. lia.
    + destruct (two 47 47 (c :: s1)) eqn:T2; [|injection E as <- <-; exists []; reflexivity].
      apply two_true in T2 as (s2 & ET). injection ET as -> ->. cbn [eatline] in E. cbn [N.eqb Pos.eqb orb] in E.
      destruct (eatline_spec s2) as (t & EQ & _). pose proof (eatline_len s2).
      apply (REC k line (47 :: 47 :: t) (eatline s2)); auto; [cbn; rewrite <- EQ; reflexivity|cbn; lia].
Qed.
Lemma toknext_never ad line s : toknext ad line s <> Fuel /\
  (toknext ad line s = Ub -> exists a w b, s = a ++ w ++ b /\ Forall word_char w /\ length w = 1024%nat).
Proof.
  rewrite toknext_token. destruct (eatspace_never (length s) (S (length s)) false line s) as [A B]; [lia|lia|].
  destruct (eatspace (S (length s)) false line s) as [[s' l]| | |] eqn:E; try congruence; [|split; discriminate].
  destruct (token_never ad l s') as [C D]. split; [exact C|]. intros U. destruct (D U) as (a & w & b & -> & F & L).
  destruct (eatspace_suffix (length s) _ _ _ _ _ _ (Nat.le_refl _) E) as (p & ->). exists (p ++ a), w, b. rewrite <- app_assoc. auto.
Qed.
Lemma toknext_progress ad line s x l r line' : toknext ad line s = Ok (x, l, r, line') -> x = Eof \/ (length r < length s)%nat.
Proof.
  rewrite toknext_token. destruct (eatspace (S (length s)) false line s) as [[s' l']| | |] eqn:E; try discriminate.
  intros T. apply token_progress in T. apply (eatspace_len (length s)) in E; [|lia]. destruct T; [auto|right; lia].
Qed.
Lemma lex_never fuel : forall ad line s, (length s < fuel)%nat -> lex fuel ad line s <> Fuel.
Proof.
  induction fuel as [|fuel IH]; intros ad line s F; [lia|]. cbn [lex].
  destruct (toknext_never ad line s) as [N _].
  destruct (toknext ad line s) as [[[[x l] r] line']| | |] eqn:T; try discriminate; [|congruence].
  destruct (toknext_progress _ _ _ _ _ _ _ T) as [->|L]; [discriminate|].
  specialize (IH (isdot x) line' r ltac:(lia)). destruct x; try discriminate; destruct (lex fuel _ line' r); try discriminate; congruence.
Qed.

(* ---- the first line ---- *)
Lemma skipline_spec s : exists h, s = h ++ fst (skipline s) /\ snd (skipline s) = 1 + newlines h /\
  ((exists h', h = h' ++ [10] /\ ~ In 10 h') \/ (fst (skipline s) = [] /\ ~ In 10 h)).
Proof.
  induction s as [|c s (h & E & L & H)]; cbn [skipline].
  - exists []. cbn. repeat split; auto.
  - destruct (N.eqb_spec c 10) as [->|N].
    + exists [10]. cbn [fst snd]. repeat split; auto. left. exists []. split; [reflexivity|intros []].
    + exists (c :: h). apply N.eqb_neq in N as N'. split; [cbn [app]; rewrite <- E; reflexivity|]. split; [cbn [newlines]; rewrite N'; lia|].
      destruct H as [(h' & -> & NI)|[E0 NI]].
      * left. exists (c :: h'). split; [reflexivity|]. intros [X|X]; [congruence|tauto].
      * right. split; [exact E0|]. intros [X|X]; [congruence|tauto].
Qed.
