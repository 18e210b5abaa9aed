(* C37: formatted integers parse back to themselves. *)
From Verif Require Import Base ListX Word Endian_Model Endian_Proofs IntFmt_Model IntFmt_Spec IntFmt_Proofs.
From Verif Require Utf_Model Utf_Spec Utf_Proofs.
Open Scope Z_scope.
Ltac Zify.zify_post_hook ::= Z.div_mod_to_equations.

(* the integer types of the language *)
Definition integer_types : list ity := [int8; uint8; int16; uint16; int32; uint32; int64; uint64].
(* v is a value of type t *)
Definition value_of (t : ity) (v : Z) : Prop := if sgn t then - 2 ^ (w t - 1) <= v < 2 ^ (w t - 1) else 0 <= v < 2 ^ w t.
(* the spelling of v in a base: a minus sign for negative values, then the numeral of the magnitude *)
Definition spelling (base v : Z) (s : list N) : Prop :=
  exists d, numeral base (Z.abs v) d /\ s = (if v <? 0 then [45%N] else []) ++ d.

Lemma types_w t : In t integer_types -> 0 < w t <= 32 \/ w t = 64.
Proof. intros H. repeat (destruct H as [<-|H]; [cbn; lia|]). destruct H. Qed.
Lemma value_cast t v : 0 < w t -> value_of t v -> cast t v = v.
Proof. intros Hw H. unfold value_of, cast in *. destruct (sgn t); [apply swrap_small|apply uwrap_small]; auto. Qed.

(* C37: without padding the output is the spelling of the value.  The only value treated separately in the code is the
   smallest int64, for which the base is ignored (see C37_int64_min_base_refuted). *)
Theorem C37_format_is_numeral o t v : In t integer_types -> value_of t v -> 2 <= base o <= 16 -> padto o <= 0 ->
  v <> - 2 ^ 63 \/ base o = 10 -> exists s, fmtint o t v = Out s /\ spelling (base o) v s.
Proof.
  intros Ht Hv Hb Hp Hm. pose proof (types_w t Ht) as Hw. assert (H0 : 0 < w t) by lia. pose proof (value_cast t v H0 Hv) as Hc.
  destruct (Z.eq_dec v (- 2 ^ 63)) as [->|Hne].
  - destruct Hm as [|Hm]; [congruence|].
    repeat (destruct Ht as [<-|Ht]; [try (exfalso; unfold value_of in Hv; cbn in Hv; lia)|]); [|destruct Ht].
    exists int64min. split; [reflexivity|]. rewrite Hm. exists (skipn 1 int64min). split; [|reflexivity].
    exists [9;2;2;3;3;7;2;0;3;6;8;5;4;7;7;5;8;0;8]. split; [reflexivity|]. split; [repeat constructor; lia|]. split; [reflexivity|].
    right. exists 9. eexists. split; [reflexivity|lia].
  - destruct (fmtint_core o t v Hw Hc Hb Hne) as (s & Nu & ->). eexists. split; [reflexivity|]. exists s. split; auto.
    replace (ndigits (padto o) (length s) (v <? 0)) with 0%nat by (unfold ndigits; destruct (v <? 0); lia). cbn [repeat concat app].
    destruct (N.eqb (padfill o) 48), (v <? 0); reflexivity.
Qed.
Print Assumptions C37_format_is_numeral.
Example C37_format_example : fmtint (mkip 16 0 32) int32 (-255) = Out [45; 102; 102]%N /\ value_of int32 (-255).
Proof. split; [reflexivity|cbv; split; congruence]. Qed.

(* C37: with padding, the fill characters come before the spelling (between sign and digits when filling with '0') and
   bring the output up to exactly padto characters; an output that is already as wide is not padded. *)
Theorem C37_padding o t v : In t integer_types -> value_of t v -> 2 <= base o <= 16 -> v <> - 2 ^ 63 ->
  exists d k, numeral (base o) (Z.abs v) d /\ let sign := if v <? 0 then [45%N] else [] in
    let fill := concat (repeat (Utf_Spec.utf8 (padfill o)) k) in
    fmtint o t v = Out (if N.eqb (padfill o) 48 then sign ++ fill ++ d else fill ++ sign ++ d) /\
    Z.of_nat (k + length sign + length d) = Z.max (padto o) (Z.of_nat (length sign + length d)).
Proof.
  intros Ht Hv Hb Hne. pose proof (types_w t Ht) as Hw. assert (H0 : 0 < w t) by lia. pose proof (value_cast t v H0 Hv) as Hc.
  destruct (fmtint_core o t v Hw Hc Hb Hne) as (s & Nu & ->). exists s, (ndigits (padto o) (length s) (v <? 0)). split; auto. cbn zeta.
  split; [destruct (N.eqb (padfill o) 48), (v <? 0); reflexivity|]. unfold ndigits. destruct (v <? 0); cbn [length]; lia.
Qed.
Print Assumptions C37_padding.
Example C37_padding_example : fmtint (mkip 10 6 48) int64 (-42) = Out [45; 48; 48; 48; 52; 50]%N /\ fmtint (mkip 10 6 32) int64 (-42) = Out [32; 32; 32; 45; 52; 50]%N.
Proof. split; reflexivity. Qed.

(* C37: parsing the spelling of any number n, also with leading zeros, yields n when it fits the type. *)
Theorem C37_parse_numeral t b v s k : In t integer_types -> value_of t v -> 2 <= b <= 16 -> numeral b (Z.abs v) s ->
  let text := (if v <? 0 then [45%N] else []) ++ repeat 48%N k ++ s in
  intparsebase t text b = Some v /\ (b = 10 -> intparse t text = Some v).
Proof.
  intros Ht Hv Hb (ds & -> & F & P & Nz) text. pose proof (types_w t Ht) as Hw. assert (H0 : 0 < w t) by lia. pose proof (value_cast t v H0 Hv) as Hc.
  assert (E : repeat 48%N k ++ map digit_char ds = map digit_char (repeat 0 k ++ ds)) by (rewrite map_app; f_equal; induction k as [|k IH]; cbn [repeat map]; [|rewrite <- IH]; reflexivity).
  assert (F' : Forall (fun d => 0 <= d < b) (repeat 0 k ++ ds)).
  { apply Forall_app. split; auto. apply Forall_forall. intros x Hx. apply repeat_spec in Hx. lia. }
  assert (V : cast t (if v <? 0 then - positional b (repeat 0 k ++ ds) else positional b (repeat 0 k ++ ds)) = v).
  { rewrite positional_zeros, P. transitivity (cast t v); [f_equal|exact Hc]. destruct (Z.ltb_spec v 0); lia. }
  subst text. rewrite E. split.
  - rewrite intparsebase_digits by auto. now rewrite V.
  - intros ->. rewrite intparse_digits; auto; [now rewrite V|].
    intros El. apply app_eq_nil in El as [_ ->]. destruct Nz as [|(d & l & E' & _)]; discriminate.
Qed.
Print Assumptions C37_parse_numeral.
Example C37_parse_example : intparse int8 [45; 48; 48; 49; 50; 56]%N = Some (-128) /\ value_of int8 (-128).
Proof. split; [reflexivity|cbv; split; congruence]. Qed.

(* C37: format then parse is the identity: in base 10 through intparse and in every base 2..16 through intparsebase,
   without padding or padding with zeros.  (The smallest int64 is printed in base 10 always.) *)
Theorem C37_roundtrip o t v : In t integer_types -> value_of t v -> 2 <= base o <= 16 -> padto o <= 0 \/ padfill o = 48%N ->
  v <> - 2 ^ 63 \/ base o = 10 ->
  exists s, fmtint o t v = Out s /\ intparsebase t s (base o) = Some v /\ (base o = 10 -> intparse t s = Some v).
Proof.
  intros Ht Hv Hb Hp Hm. destruct (Z.eq_dec v (- 2 ^ 63)) as [->|Hne].
  - destruct Hm as [|Hm]; [congruence|]. rewrite Hm.
    repeat (destruct Ht as [<-|Ht]; [try (exfalso; unfold value_of in Hv; cbn in Hv; lia)|]); [|destruct Ht].
    exists int64min. split; [reflexivity|]. split; reflexivity.
  - clear Hm. destruct (C37_padding o t v Ht Hv Hb Hne) as (d & k & Nu & -> & L). destruct Hp as [Hp|Hp].
    + assert (k = 0%nat) as -> by lia. destruct (C37_parse_numeral t (base o) v d 0 Ht Hv Hb Nu) as [A B].
      eexists. split; [reflexivity|]. cbn [repeat concat app] in *. destruct (N.eqb (padfill o) 48); auto.
    + rewrite Hp. cbn [N.eqb Pos.eqb]. destruct (C37_parse_numeral t (base o) v d k Ht Hv Hb Nu) as [A B].
      assert (concat (repeat (Utf_Spec.utf8 48) k) = repeat 48%N k) as -> by (clear; induction k; cbn in *; congruence).
      eexists. split; [reflexivity|]. auto.
Qed.
Print Assumptions C37_roundtrip.
Example C37_roundtrip_example : fmtint (mkip 2 10 48) int16 (-5) = Out [45; 48; 48; 48; 48; 48; 48; 49; 48; 49]%N /\
  intparsebase int16 [45; 48; 48; 48; 48; 48; 48; 49; 48; 49]%N 2 = Some (-5).
Proof. split; reflexivity. Qed.

(* C37: the smallest int64 in another base is still printed in decimal, so it parses back to something else. *)
Theorem C37_int64_min_base_refuted : exists s, fmtint (mkip 16 0 32) int64 (- 2 ^ 63) = Out s /\ intparsebase int64 s 16 <> Some (- 2 ^ 63).
Proof. exists int64min. split; [reflexivity|]. intros H. vm_compute in H. discriminate. Qed.
Print Assumptions C37_int64_min_base_refuted.

(* Rejection of what is not a number: every accepted text consists of digits of the base and underscores only. *)
Theorem C37_reject_non_digits t b cs : Forall (fun c => (c < 128)%N) cs ->
  forall c, In c cs -> c <> 95%N -> charval c b < 0 -> cs <> [] -> hd 0%N cs <> 45%N -> intparsebase t cs b = None.
Proof.
  intros Ha c Hc H95 Hcv Hne Hm. unfold intparsebase. destruct cs as [|x cs]; [congruence|]. cbn [hd] in Hm.
  rewrite hasprefix_cons. destruct (N.eqb_spec x 45); [congruence|]. cbn [andb].
  unfold doparse. rewrite bychar_ascii by auto.
  assert (L : forall l v, In c l -> parse_loop t b v l = None).
  { clear - H95 Hcv. induction l as [|y l IH]; intros v; [intros []|]. cbn [parse_loop]. intros [->|H].
    - destruct (N.eqb_spec c 95); [congruence|]. destruct (Z.leb_spec 0 (charval c b)); [lia|auto].
    - destruct (N.eqb y 95); [auto|]. destruct (0 <=? charval y b); auto. }
  now rewrite L.
Qed.
Print Assumptions C37_reject_non_digits.
Example C37_reject_example : charval 56%N 8 < 0 /\ intparsebase int32 [49; 56]%N 8 = None.
Proof. split; reflexivity. Qed.

(* Neither out-of-range numbers nor texts without digits are rejected. *)
Theorem C37_out_of_range_rejected_refuted : exists s, spelling 10 300 s /\ intparse int8 s = Some 44.
Proof.
  exists [51; 48; 48]%N. split; [|reflexivity]. exists [51; 48; 48]%N. split; [|reflexivity]. exists [3; 0; 0].
  split; [reflexivity|]. split; [repeat constructor; lia|]. split; [reflexivity|]. right. exists 3, [0; 0]. split; [reflexivity|lia].
Qed.
Print Assumptions C37_out_of_range_rejected_refuted.
Theorem C37_no_digits_rejected_refuted : intparsebase int32 [45]%N 10 = Some 0 /\ intparse int32 [48; 120]%N = Some 0 /\ intparse int32 [95]%N = Some 0.
Proof. repeat split. Qed.
Print Assumptions C37_no_digits_rejected_refuted.
