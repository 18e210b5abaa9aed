(* C85-C88: JSON. *)
From Verif Require Import Base ListX Utf_Spec Utf_Model Utf_Proofs Json_Spec Json_Model Json_Basic Json_Complete Json_Sound.
From Coq Require Import NArith ZArith Lia List.
Import ListNotations.
Open Scope N_scope.

(* grammars with other readings of \u *)
Section M.
Context {num : Type} (read : list N -> option num) (uni uni' : list N -> option N).
Lemma chars_mono q s : (forall ds c, uni ds = Some c -> uni' ds = Some c) -> chars uni q s -> chars uni' q s.
Proof. intros M. induction 1; [constructor|apply C_plain; assumption|apply C_escape; assumption|apply C_unicode; auto]. Qed.
Lemma json_mono : (forall ds c, uni ds = Some c -> uni' ds = Some c) ->
  (forall v t, json read uni v t -> json read uni' v t) /\ (forall a t, elts read uni a t -> elts read uni' a t) /\ (forall o t, membs read uni o t -> membs read uni' o t).
Proof.
  intros M. assert (S : forall s t, string uni s t -> string uni' s t) by (intros s t (q & -> & C); exists q; split; [reflexivity|apply chars_mono; assumption]).
  apply json_all; intros; constructor; auto.
Qed.
Lemma chars_other q s : (forall ds c, uni ds = Some c -> exists c', uni' ds = Some c') -> chars uni q s -> exists s', chars uni' q s'.
Proof.
  intros M. induction 1 as [|c t s U C (s' & IH)|e c t s I C (s' & IH)|ds c t s L U C (s' & IH)].
  - eexists. constructor.
  - eexists. apply C_plain; eassumption.
  - eexists. eapply C_escape; eassumption.
  - destruct (M _ _ U) as (c' & U'). eexists. apply C_unicode; eassumption.
Qed.
Lemma json_other : (forall ds c, uni ds = Some c -> exists c', uni' ds = Some c') ->
  (forall v t, json read uni v t -> exists v', json read uni' v' t) /\ (forall a t, elts read uni a t -> exists a', elts read uni' a' t) /\ (forall o t, membs read uni o t -> exists o', membs read uni' o' t).
Proof.
  intros M. assert (S : forall s t, string uni s t -> exists s', string uni' s' t) by (intros s t (q & -> & C); destruct (chars_other _ _ M C) as (s' & C'); exists s', q; auto).
  apply json_all.
  - eexists; constructor.
  - eexists; constructor.
  - eexists; constructor.
  - intros; eexists; constructor; eassumption.
  - intros s t H. destruct (S _ _ H). eexists; constructor; eassumption.
  - intros; eexists; constructor; eassumption.
  - intros a t _ (a' & E). eexists; apply J_arr; eassumption.
  - intros; eexists; apply J_nomembs; eassumption.
  - intros a t _ (a' & E). eexists; apply J_obj; eassumption.
  - intros v t w1 w2 W1 _ (v' & J) W2. eexists. apply E_last; eassumption.
  - intros v t w1 w2 a ts W1 _ (v' & J) W2 _ (a' & E). eexists. apply E_more; eassumption.
  - intros k kt v t w1 w2 w3 w4 W1 K W2 W3 _ (v' & J) W4. destruct (S _ _ K). eexists. apply M_last; eassumption.
  - intros k kt v t w1 w2 w3 w4 o ts W1 K W2 W3 _ (v' & J) W4 _ (o' & E). destruct (S _ _ K). eexists. apply M_more; eassumption.
Qed.
End M.

(* C85: a JSON text without \u escapes, not too deep, is parsed to its value.  read is what flt64parse makes of a number. *)
Theorem C85_parses_partial {num : Type} (read : list N -> option num) (v : elt num) (t : list N) :
  text read nohex v t -> nest v + empties v <= 1024 -> exists p, parse read t = Ok v p.
Proof.
  intros (w1 & b & w2 & E & W1 & J & W2) D. apply parse_complete; [|unfold Maxdepth; lia].
  exists w1, b, w2. repeat split; auto. apply (proj1 (json_mono read nohex uni16 ltac:(discriminate))). exact J.
Qed.
Print Assumptions C85_parses_partial.
(* a non-trivial text: [true, {"a\n": 1}] *)
Definition read1 (t : list N) : option N := match t with [c] => Some (c - 48) | _ => None end.
Definition sample : elt N := Arr [Bool true; Obj [([97; 10], Num 1)]].
Definition sample_text : list N := [91; 116; 114; 117; 101; 44; 32; 123; 34; 97; 92; 110; 34; 58; 32; 49; 125; 93].
Example C85_met : text read1 nohex sample sample_text /\ nest sample + empties sample <= 1024.
Proof.
  split; [|vm_compute; discriminate]. exists [], sample_text, []. split; [reflexivity|]. split; [constructor|]. split; [|constructor].
  apply (J_arr _ _ _ [116; 114; 117; 101; 44; 32; 123; 34; 97; 92; 110; 34; 58; 32; 49; 125]).
  apply (E_more _ _ (Bool true) [116; 114; 117; 101] [] [] _ [32; 123; 34; 97; 92; 110; 34; 58; 32; 49; 125]); try constructor.
  apply (E_last _ _ _ [123; 34; 97; 92; 110; 34; 58; 32; 49; 125] [32] []); [repeat constructor| |constructor].
  apply (J_obj _ _ _ [34; 97; 92; 110; 34; 58; 32; 49]).
  apply (M_last _ _ [97; 10] [34; 97; 92; 110; 34] (Num 1) [49] [] [] [32] []); try constructor; try (left; reflexivity); try constructor.
  - exists [97; 92; 110]. split; [reflexivity|]. apply (C_plain _ 97 [92; 110] [10]); [unfold unescaped_char; lia|]. apply C_escape; [cbn; tauto|constructor].
  - exists [], [49], [], []. repeat split; auto; [|left; reflexivity|left; reflexivity]. right. split; [split; [discriminate|repeat constructor; unfold digit; lia]|cbn; lia].
Qed.
(* false with a \u escape: the escape 0041 stands for A and is read as P *)
Definition escaped_A : list N := [34; 92; 117; 48; 48; 52; 49; 34].
Theorem C85_unicode_refuted {num : Type} (read : list N -> option num) :
  text read hex4 (Str [65]) escaped_A /\ exists p, parse read escaped_A = Ok (Str [80]) p.
Proof.
  split; [|eexists; vm_compute; reflexivity]. exists [], escaped_A, []. split; [reflexivity|]. split; [constructor|]. split; [|constructor]. apply J_str. exists [92; 117; 48; 48; 52; 49]. split; [reflexivity|].
  apply (C_unicode hex4 [48; 48; 52; 49] 65 [] []); [reflexivity|reflexivity|constructor].
Qed.
Print Assumptions C85_unicode_refuted.
(* false for an array of 1025 empty arrays, of nesting depth 2: refused as too deep *)
Fixpoint flat (n : nat) : list N := match n with O => [91; 93] | S n => [91; 93; 44] ++ flat n end.
Lemma flat_elts {num} (read : list N -> option num) n : elts read nohex (repeat (Arr []) (S n)) (flat n).
Proof.
  assert (J : json read nohex (Arr []) [91; 93]) by (apply (J_noelts _ _ []); constructor).
  induction n as [|n IH]; [apply (E_last _ _ _ [91; 93] [] []); [constructor|exact J|constructor]|]. apply (E_more _ _ _ [91; 93] [] [] _ (flat n)); [constructor|exact J|constructor|exact IH].
Qed.
Theorem C85_flat_refuted {num : Type} (read : list N -> option num) : exists (v : elt num) (t : list N),
  text read nohex v t /\ nest v = 2 /\ exists l o, parse read t = Er Depth l o.
Proof.
  exists (Arr (repeat (Arr []) (S (N.to_nat 1024)))), (91 :: flat (N.to_nat 1024) ++ [93]). split; [|split].
  - eexists [], _, []. rewrite app_nil_r. split; [reflexivity|]. split; [constructor|]. split; [|constructor]. apply J_arr. apply flat_elts.
  - vm_compute. reflexivity.
  - eexists _, _. vm_compute. reflexivity.
Qed.
Print Assumptions C85_flat_refuted.

(* C86: a text in UTF-8 in which no comma stands before a closing brace is only accepted if it is JSON, and its value is
   then the one the text has, apart from \u escapes. *)
Theorem C86_accepts_json_partial {num : Type} (read : list N -> option num) (t : list N) (v : elt num) (p : parser) :
  is_utf8 t -> (forall a b, t <> a ++ 44 :: 125 :: b) -> parse read t = Ok v p -> exists v', text read hex4 v' t.
Proof.
  intros (cs & E & U) NC H. assert (V : valid t) by (exists cs; split; [revert U; apply Forall_impl; intros; lia|exact E]).
  destruct (parse_sound read t v p V NC H) as (w1 & b & w2 & ET & W1 & J & W2).
  destruct (proj1 (json_other read uni16 hex4 ltac:(intros ds c; destruct ds as [|x [|y [|z [|u [|]]]]]; try discriminate; cbn [uni16 hex4]; destruct (hexdigit x), (hexdigit y), (hexdigit z), (hexdigit u); try discriminate; eauto)) _ _ J) as (v' & J').
  exists v', w1, b, w2. auto.
Qed.
Print Assumptions C86_accepts_json_partial.
Lemma sample_ascii : sample_text = utf8_string sample_text. Proof. reflexivity. Qed.
Example C86_met : is_utf8 sample_text /\ (forall a b, sample_text <> a ++ 44 :: 125 :: b) /\ exists p, parse read1 sample_text = Ok sample p.
Proof.
  split; [exists sample_text; split; [reflexivity|repeat constructor; vm_compute; discriminate]|]. split; [|eexists; vm_compute; reflexivity].
  intros a b H. do 18 (destruct a as [|? a]; [discriminate H|cbn in H; injection H as _ H]); destruct a; discriminate H.
Qed.

(* JSON does not end in a comma, nor in a byte that is not ASCII *)
Lemma json_last {num} (read : list N -> option num) uni v t : json read uni v t -> exists t' c, t = t' ++ [c] /\ c <> 44 /\ c < 128.
Proof.
  assert (DL : forall d, digits d -> exists t' c, d = t' ++ [c] /\ c <> 44 /\ c < 128).
  { intros d (NE & D). destruct (exists_last NE) as (d' & c & ->). apply Forall_app in D as [_ D]. inversion D; subst. unfold digit in *. exists d', c. repeat split; lia. }
  intros J. inversion J; subst.
  - exists [110; 117; 108], 108. repeat split; lia.
  - exists [116; 114; 117], 101. repeat split; lia.
  - exists [102; 97; 108; 115], 101. repeat split; lia.
  - destruct H as (m & i & f & e & -> & _ & HI & HF & HE). rewrite !app_assoc.
    destruct HE as [->|(x & s & d & -> & _ & _ & D)]; [|destruct (DL _ D) as (t' & c & -> & C); exists (((m ++ i) ++ f) ++ x :: s ++ t'), c; split; [rewrite <- !app_assoc; cbn; rewrite <- !app_assoc; reflexivity|exact C]]. rewrite app_nil_r.
    destruct HF as [->|(d & -> & D)]; [|destruct (DL _ D) as (t' & c & -> & C); exists ((m ++ i) ++ 46 :: t'), c; split; [rewrite <- !app_assoc; reflexivity|exact C]]. rewrite app_nil_r.
    destruct HI as [->|(D & _)]; [exists m, 48; repeat split; lia|]. destruct (DL _ D) as (t' & c & -> & C). exists (m ++ t'), c. split; [rewrite app_assoc; reflexivity|exact C].
  - destruct H as (q & -> & _). exists (34 :: q), 34. repeat split; lia.
  - exists (91 :: w), 93. repeat split; lia.
  - exists (91 :: t0), 93. repeat split; lia.
  - exists (123 :: w), 125. repeat split; lia.
  - exists (123 :: t0), 125. repeat split; lia.
Qed.
Lemma last_ws t' c w : c <> 44 /\ c < 128 -> ws w -> exists t'' c', (t' ++ [c]) ++ w = t'' ++ [c'] /\ c' <> 44 /\ c' < 128.
Proof.
  intros C W. destruct w as [|x w] using rev_ind; [rewrite app_nil_r; eauto|]. apply Forall_app in W as [_ W]. inversion W; subst. unfold space in *.
  exists ((t' ++ [c]) ++ w), x. rewrite app_assoc. repeat split; lia.
Qed.
Lemma elts_last {num} (read : list N -> option num) uni a t : elts read uni a t -> exists t' c, t = t' ++ [c] /\ c <> 44 /\ c < 128.
Proof.
  induction 1.
  - destruct (json_last _ _ _ _ H0) as (t' & c & -> & C). destruct (last_ws t' c w2 C H1) as (t'' & c' & E & C'). exists (w1 ++ t''), c'. rewrite E, app_assoc. auto.
  - destruct IHelts as (t' & c & -> & C). exists (w1 ++ t ++ w2 ++ 44 :: t'), c. split; [rewrite <- !app_assoc; reflexivity|exact C].
Qed.
Lemma membs_last {num} (read : list N -> option num) uni a t : membs read uni a t -> exists t' c, t = t' ++ [c] /\ c <> 44 /\ c < 128.
Proof.
  induction 1.
  - destruct (json_last _ _ _ _ H3) as (t' & c & -> & C). destruct (last_ws t' c w4 C H4) as (t'' & c' & E & C'). exists (w1 ++ kt ++ w2 ++ 58 :: w3 ++ t''), c'. rewrite E. split; [rewrite <- !app_assoc; cbn; rewrite <- !app_assoc; reflexivity|exact C'].
  - destruct IHmembs as (t' & c & -> & C). exists (w1 ++ kt ++ w2 ++ 58 :: w3 ++ t ++ w4 ++ 44 :: t'), c. split; [rewrite <- !app_assoc; cbn; rewrite <- !app_assoc; reflexivity|exact C].
Qed.
Lemma text_trim {num} (read : list N -> option num) uni v x t y : ~ space x -> ~ space y -> text read uni v (x :: t ++ [y]) -> json read uni v (x :: t ++ [y]).
Proof.
  intros NX NY (w1 & b & w2 & E & W1 & J & W2). destruct w1 as [|a w1]; [|cbn in E; injection E as -> E; inversion W1; contradiction]. cbn in E.
  destruct w2 as [|a w2] using rev_ind; [rewrite app_nil_r in E; rewrite E; exact J|]. clear IHw2. exfalso. apply Forall_app in W2 as [_ W2]. inversion W2 as [|? ? SA _]; subst. apply NY.
  rewrite app_assoc in E. change (x :: t ++ [y]) with ((x :: t) ++ [y]) in E. apply app_inj_tail in E as [_ ->]. exact SA.
Qed.
(* false with a comma before a closing brace: the brace is taken for two, and {"x":{"a":1,} is accepted *)
Definition comma_brace : list N := [123; 34; 120; 34; 58; 123; 34; 97; 34; 58; 49; 44; 125].
Theorem C86_comma_refuted : is_utf8 comma_brace /\ (exists p, parse read1 comma_brace = Ok (Obj [([120], Obj [([97], Num 1)])]) p) /\
  forall v, ~ text read1 hex4 v comma_brace.
Proof.
  split; [exists comma_brace; split; [reflexivity|repeat constructor; vm_compute; discriminate]|]. split; [eexists; vm_compute; reflexivity|].
  intros v T. apply (text_trim read1 hex4 v 123 [34; 120; 34; 58; 123; 34; 97; 34; 58; 49; 44] 125) in T; [|unfold space; lia|unfold space; lia]. inversion T; subst.
  - destruct (number_head _ H) as (c & x & E & HC). injection E as <- _. unfold digit in HC. lia.
  - destruct H as (q & E & _). discriminate E.
  - apply (app_inj_tail w [34; 120; 34; 58; 123; 34; 97; 34; 58; 49; 44]) in H as [-> _]. inversion H1. unfold space in *. lia.
  - apply (app_inj_tail t [34; 120; 34; 58; 123; 34; 97; 34; 58; 49; 44]) in H as [-> _]. destruct (membs_last _ _ _ _ H1) as (t' & c & E & NC & _). change [34; 120; 34; 58; 123; 34; 97; 34; 58; 49; 44] with ([34; 120; 34; 58; 123; 34; 97; 34; 58; 49] ++ [44]) in E. apply app_inj_tail in E as [_ <-]. contradiction.
Qed.
Print Assumptions C86_comma_refuted.
(* false for bytes that are not UTF-8: the byte c1 before a closing bracket is taken for another one *)
Definition bad_byte : list N := [91; 91; 49; 0xc1; 93].
Theorem C86_bytes_refuted : (exists p, parse read1 bad_byte = Ok (Arr [Arr [Num 1]]) p) /\ forall v, ~ text read1 hex4 v bad_byte.
Proof.
  split; [eexists; vm_compute; reflexivity|].
  intros v T. apply (text_trim read1 hex4 v 91 [91; 49; 0xc1] 93) in T; [|unfold space; lia|unfold space; lia]. inversion T; subst.
  - destruct (number_head _ H) as (c & x & E & HC). injection E as <- _. unfold digit in HC. lia.
  - destruct H as (q & E & _). discriminate E.
  - apply (app_inj_tail w [91; 49; 0xc1]) in H as [-> _]. inversion H1. unfold space in *. lia.
  - apply (app_inj_tail t [91; 49; 0xc1]) in H as [-> _]. destruct (elts_last _ _ _ _ H1) as (t' & c & E & _ & L). change [91; 49; 0xc1] with ([91; 49] ++ [0xc1]) in E. apply app_inj_tail in E as [_ <-]. lia.
Qed.
Print Assumptions C86_bytes_refuted.

(* C88: the parser answers on every input: it returns a value or an error, and never aborts or runs on. *)
Theorem C88_answers {num : Type} (read : list N -> option num) (t : list N) : Forall (fun b => b < 256) t ->
  (exists v p, parse read t = Ok v p) \/ (exists e l o, parse read t = Er e l o).
Proof. exact (parse_answers read t). Qed.
Print Assumptions C88_answers.
Example C88_met : (exists p, parse read1 sample_text = Ok sample p) /\ exists e l o, parse read1 [91; 255] = Er e l o.
Proof. split; [eexists; vm_compute; reflexivity|eexists _, _, _; vm_compute; reflexivity]. Qed.

(* C87: printing and parsing *)
Section R.
Context {num : Type} (read : list N -> option num) (fmt : num -> list N).
Lemma elt_all (P : elt num -> Prop) : P Null -> (forall b, P (Bool b)) -> (forall n, P (Num n)) -> (forall s, P (Str s)) ->
  (forall a, Forall P a -> P (Arr a)) -> (forall o, Forall (fun kv => P (snd kv)) o -> P (Obj o)) -> forall v, P v.
Proof.
  intros H1 H2 H3 H4 H5 H6. fix IH 1. intros v. destruct v as [|b|n|s|a|o]; [exact H1|apply H2|apply H3|apply H4| |].
  - apply H5. induction a as [|x a IHa]; constructor; [apply IH|exact IHa].
  - apply H6. induction o as [|[k x] o IHo]; constructor; [apply IH|exact IHo].
Qed.
Lemma jchar_high c : 128 <= c -> jchar c = [c].
Proof. intros H. unfold jchar. rewrite (eqb_n c 12), (eqb_n c 92), (eqb_n c 10), (eqb_n c 13), (eqb_n c 9) by lia. reflexivity. Qed.
Lemma jchar_utf8 c : 128 <= c -> concat (map jchar (utf8 c)) = utf8 c.
Proof.
  intros H. assert (F : Forall (fun b => 128 <= b) (utf8 c)).
  { unfold utf8. destruct (N.ltb_spec c 128); [lia|]. destruct (c <? 2048); [repeat constructor; lia|]. destruct (c <? 65536); repeat constructor; lia. }
  induction F as [|b l B F IH]; [reflexivity|]. cbn. rewrite jchar_high by exact B. rewrite IH. reflexivity.
Qed.
Lemma jstr_chars cs : Forall (fun c => c <= 0x10ffff /\ c <> 34 /\ (32 <= c \/ In c [12; 10; 13; 9])) cs ->
  chars nohex (concat (map jchar (utf8_string cs))) (utf8_string cs).
Proof.
  induction 1 as [|c cs (C1 & C2 & C3) F IH]; [constructor|]. cbn [utf8_string map concat]. fold (utf8_string cs). rewrite map_app, concat_app.
  destruct (N.lt_ge_cases c 128) as [L|L].
  - rewrite utf8_ascii by exact L. cbn [map concat app]. rewrite app_nil_r. unfold jchar.
    destruct (N.eqb_spec c 12) as [->|N1]; [apply C_escape; [cbn; tauto|exact IH]|]. destruct (N.eqb_spec c 92) as [->|N2]; [apply C_escape; [cbn; tauto|exact IH]|].
    destruct (N.eqb_spec c 10) as [->|N3]; [apply C_escape; [cbn; tauto|exact IH]|]. destruct (N.eqb_spec c 13) as [->|N4]; [apply C_escape; [cbn; tauto|exact IH]|].
    destruct (N.eqb_spec c 9) as [->|N5]; [apply C_escape; [cbn; tauto|exact IH]|]. change (c :: utf8_string cs) with ([c] ++ utf8_string cs). rewrite <- (utf8_ascii c L). apply C_plain; [|exact IH].
    destruct C3 as [C3|C3]; [|cbn in C3; exfalso; lia]. unfold unescaped_char. lia.
  - rewrite jchar_utf8 by exact L. apply C_plain; [|exact IH]. unfold unescaped_char. lia.
Qed.
Lemma jstrfmt_string s : plain s -> string nohex s (jstrfmt s).
Proof. intros (cs & -> & F). eexists. split; [reflexivity|]. apply jstr_chars. exact F. Qed.
Lemma ws_nl w : ws w -> ws (10 :: w).
Proof. intros W. constructor; [right; right; left; reflexivity|exact W]. Qed.
Lemma indent_ws n : ws (indent n).
Proof. unfold indent. induction n; constructor; [right; left; reflexivity|assumption]. Qed.
Lemma sepfmt_sep {A} (f : A -> list N) sep ind x l : sepfmt f sep ind (x :: l) = sep ++ indent (ind + 1) ++ f x ++ sepfmt f [44; 10] ind l.
Proof. reflexivity. Qed.
Notation json := (json read nohex). Notation elts := (elts read nohex). Notation membs := (membs read nohex).
Lemma sep_elts f ind a : forall x w w', json x (f x) -> Forall (fun v => json v (f v)) a -> ws w -> ws w' -> elts (x :: a) (w ++ sepfmt f [] ind (x :: a) ++ w').
Proof.
  induction a as [|y a IH]; intros x w w' J F W W'; rewrite sepfmt_sep.
  - cbn [app sepfmt]. rewrite app_nil_r, <- !app_assoc, app_assoc. apply E_last; [|exact J|exact W']. apply ws_app; [exact W|apply indent_ws].
  - inversion F as [|? ? Jy Fa]; subst. change (sepfmt f [44; 10] ind (y :: a)) with (44 :: [10] ++ sepfmt f [] ind (y :: a)).
    cbn [app]. rewrite <- !app_assoc. cbn [app]. rewrite app_assoc. apply (E_more _ _ x (f x) (w ++ indent (ind + 1)) [] (y :: a) (10 :: sepfmt f [] ind (y :: a) ++ w')).
    + apply ws_app; [exact W|apply indent_ws].
    + exact J.
    + constructor.
    + apply (IH y [10] w'); auto. apply ws_nl. constructor.
Qed.
Lemma sep_membs f ind o : forall x w w', string nohex (fst x) (jstrfmt (fst x)) -> json (snd x) (f (snd x)) -> Forall (fun kv => string nohex (fst kv) (jstrfmt (fst kv)) /\ json (snd kv) (f (snd kv))) o -> ws w -> ws w' ->
  membs (x :: o) (w ++ sepfmt (fun kv => jstrfmt (fst kv) ++ [58; 32] ++ f (snd kv)) [] ind (x :: o) ++ w').
Proof.
  induction o as [|y a IH]; intros [k x] w w' S J F W W'; cbn [fst snd] in *; rewrite sepfmt_sep; cbn [fst snd].
  - cbn [app sepfmt]. rewrite app_nil_r, <- !app_assoc. cbn [app]. rewrite app_assoc. apply (M_last _ _ k (jstrfmt k) x (f x) (w ++ indent (ind + 1)) [] [32] w'); auto; try constructor; [apply ws_app; [exact W|apply indent_ws]|left; reflexivity|constructor].
  - inversion F as [|? ? Jy Fa]; subst. match goal with |- context [sepfmt ?g [44; 10] ind (y :: a)] => change (sepfmt g [44; 10] ind (y :: a)) with (44 :: [10] ++ sepfmt g [] ind (y :: a)) end.
    cbn [app]. repeat (rewrite <- !app_assoc; cbn [app]). rewrite app_assoc.
    match goal with |- membs _ (_ ++ _ ++ 58 :: 32 :: _ ++ 44 :: ?ts) => apply (M_more _ _ k (jstrfmt k) x (f x) (w ++ indent (ind + 1)) [] [32] [] (y :: a) ts) end; auto.
    + apply ws_app; [exact W|apply indent_ws].
    + constructor.
    + repeat constructor.
    + constructor.
    + destruct Jy as [Sy Jy]. apply (IH y [10] w'); auto. apply ws_nl. constructor.
Qed.
Lemma fmt_json v : every plain (fun n => number (fmt n) /\ read (fmt n) = Some n) v -> forall ind, json v (eltfmt fmt v ind).
Proof.
  induction v as [|b|n|s|a IH|o IH] using elt_all; intros E ind; cbn [eltfmt].
  - constructor.
  - destruct b; constructor.
  - destruct E. constructor; assumption.
  - constructor. apply jstrfmt_string. exact E.
  - destruct a as [|x a]; [apply (J_noelts _ _ (10 :: 10 :: indent ind)); apply ws_nl, ws_nl, indent_ws|].
    assert (F : Forall (fun v => json v (eltfmt fmt v (ind + 1))) (x :: a)).
    { revert IH E. generalize (x :: a). intros l. induction 1 as [|y l Hy Hl IHl]; intros E; constructor; cbn in E; destruct E as [E1 E2]; auto. }
    inversion F; subst. cbn [app]. match goal with |- json _ (91 :: 10 :: ?s ++ 10 :: ?i ++ [93]) => replace (91 :: 10 :: s ++ 10 :: i ++ [93]) with (91 :: ([10] ++ s ++ 10 :: i) ++ [93]) by (cbn; rewrite <- app_assoc; reflexivity) end.
    apply J_arr. apply (sep_elts (fun e => eltfmt fmt e (ind + 1))); auto; [apply ws_nl; constructor|apply ws_nl, indent_ws].
  - destruct o as [|x a]; [apply (J_nomembs _ _ (10 :: 10 :: indent ind)); apply ws_nl, ws_nl, indent_ws|].
    assert (F : Forall (fun kv => string nohex (fst kv) (jstrfmt (fst kv)) /\ json (snd kv) (eltfmt fmt (snd kv) (ind + 1))) (x :: a)).
    { revert IH E. generalize (x :: a). intros l. induction 1 as [|y l Hy Hl IHl]; intros E; constructor; cbn in E; destruct E as (E1 & E2 & E3); auto. split; [apply jstrfmt_string; exact E1|auto]. }
    inversion F as [|? ? [F1 F2] F3]; subst. cbn [app]. match goal with |- json _ (123 :: 10 :: ?s ++ 10 :: ?i ++ [125]) => replace (123 :: 10 :: s ++ 10 :: i ++ [125]) with (123 :: ([10] ++ s ++ 10 :: i) ++ [125]) by (cbn; rewrite <- app_assoc; reflexivity) end.
    apply J_obj. apply (sep_membs (fun e => eltfmt fmt e (ind + 1))); auto; [apply ws_nl; constructor|apply ws_nl, indent_ws].
Qed.
(* numbers are assumed to be printed so that flt64parse reads them back *)
Theorem C87_roundtrip_partial (v : elt num) :
  every plain (fun n => number (fmt n) /\ read (fmt n) = Some n) v -> nest v + empties v <= 1024 ->
  exists p, parse read (jsonfmt fmt v) = Ok v p.
Proof.
  intros E D. apply C85_parses_partial; [|exact D]. exists [], (jsonfmt fmt v), []. rewrite app_nil_r. split; [reflexivity|]. split; [constructor|]. split; [apply fmt_json; exact E|constructor].
Qed.
(* false for strings with a quote, and for those with a control character *)
Theorem C87_quote_refuted : exists l o, parse read (jsonfmt fmt (Str [97; 34; 98])) = Er (Junk 98) l o.
Proof. eexists _, _. vm_compute. reflexivity. Qed.
Theorem C87_control_refuted : exists l o, parse read (jsonfmt fmt (Str [8])) = Er (Junk 8) l o.
Proof. eexists _, _. vm_compute. reflexivity. Qed.
(* a quote in a string can also give another value: the text of one string can hold two members *)
Theorem C87_injection_refuted : exists v w p, v <> w /\ parse read (jsonfmt fmt v) = Ok w p.
Proof.
  exists (Obj [([97; 34; 58; 32; 116; 114; 117; 101; 44; 32; 34; 98], Null)]), (Obj [([97], Bool true); ([98], Null)]).
  eexists. split; [discriminate|vm_compute; reflexivity].
Qed.
End R.
Print Assumptions C87_roundtrip_partial.
Print Assumptions C87_quote_refuted.
Print Assumptions C87_control_refuted.
Print Assumptions C87_injection_refuted.
Example C87_met : every plain (fun n => number [48 + n] /\ read1 [48 + n] = Some n) sample /\ nest sample + empties sample <= 1024 /\
  exists p, parse read1 (jsonfmt (fun n => [48 + n]) sample) = Ok sample p.
Proof.
  assert (E : every plain (fun n => number [48 + n] /\ read1 [48 + n] = Some n) sample).
  { cbn. repeat split; auto; [exists [97; 10]; split; [reflexivity|repeat constructor; cbn; lia]|].
    exists [], [49], [], []. repeat split; auto; [|left; reflexivity|left; reflexivity]. right. split; [split; [discriminate|repeat constructor; unfold digit; lia]|cbn; lia]. }
  split; [exact E|]. split; [vm_compute; discriminate|]. apply C87_roundtrip_partial; [exact E|vm_compute; discriminate].
Qed.
