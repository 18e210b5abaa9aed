(* C32 (UTF-8 encode, decode, charstep, bychar), C47 (bycharoff), C48 (graphemestep). *)
From Verif Require Import Base Utf_Model Utf_Spec Utf_Proofs.
Open Scope N_scope.

(* C32: encode writes exactly the UTF-8 bytes of the code point at the front of the buffer, leaves the rest of the
   buffer alone, and returns their number; a buffer too small for them is left alone and -1 returned. *)
Theorem C32_encode_writes_utf8 (buf : list byte) (c : N) : c < 0x200000 ->
  encode buf c = (if (length (utf8 c) <=? length buf)%nat
                  then (Z.of_nat (length (utf8 c)), utf8 c ++ skipn (length (utf8 c)) buf)
                  else ((-1)%Z, buf)).
Proof.
  intros H. destruct (Nat.leb_spec (length (utf8 c)) (length buf)).
  - apply encode_spec; auto. rewrite charlen_utf8; auto.
  - apply encode_short. rewrite charlen_utf8; auto.
Qed.
Print Assumptions C32_encode_writes_utf8.

(* C32: stepping over an encoded character gives that character and exactly the rest of the string. *)
Theorem C32_step_over_encoded (c : N) (rest : list byte) : c < 0x200000 -> charstep (utf8 c ++ rest) = (c, rest).
Proof. exact (charstep_utf8 c rest). Qed.
Print Assumptions C32_step_over_encoded.

(* C32: encoding then decoding, in one buffer, through the two functions only. *)
Lemma roundtrip (buf : list byte) (c : N) : c < 0x200000 -> (4 <= length buf)%nat ->
  exists n buf', encode buf c = (n, buf') /\ (1 <= n <= 4)%Z /\ length buf' = length buf /\ decode buf' = c /\
    skipn (Z.to_nat n) buf' = skipn (Z.to_nat n) buf /\ charstep buf' = (c, skipn (Z.to_nat n) buf).
Proof.
  intros H Hl.
  assert (Hu : (1 <= length (utf8 c) <= 4)%nat).
  { unfold utf8. repeat match goal with |- context [?a <? ?b] => destruct (a <? b) end; cbn; lia. }
  eexists _, _. split; [apply encode_spec; auto; rewrite charlen_utf8; auto; lia|]. rewrite Nat2Z.id.
  split; [lia|]. split; [rewrite app_length, skipn_length; lia|]. unfold decode. rewrite charstep_utf8 by auto. repeat split.
  rewrite skipn_app, skipn_all, Nat.sub_diag. reflexivity.
Qed.
Theorem C32_roundtrip (buf : list byte) (c : N) : c < 0x200000 -> (4 <= length buf)%nat ->
  exists n buf', encode buf c = (n, buf') /\ (1 <= n <= 4)%Z /\ length buf' = length buf /\ decode buf' = c /\
    skipn (Z.to_nat n) buf' = skipn (Z.to_nat n) buf /\ charstep buf' = (c, skipn (Z.to_nat n) buf).
Proof. exact (roundtrip buf c). Qed.
Print Assumptions C32_roundtrip.
Example C32_case : encode [0;0;0;0;7] 0x20ac = (3%Z, [0xe2;0x82;0xac;0;7]) /\ decode [0xe2;0x82;0xac;0;7] = 0x20ac /\
  encode [0;0] 0x20ac = ((-1)%Z, [0;0]).
Proof. repeat split. Qed.

(* C32: no encoding is a prefix of another, so a string of encoded characters has one reading. *)
Lemma prefix_free (c1 c2 : N) (r1 r2 : list byte) : c1 < 0x200000 -> c2 < 0x200000 ->
  utf8 c1 ++ r1 = utf8 c2 ++ r2 -> c1 = c2 /\ r1 = r2.
Proof. intros H1 H2 E. pose proof (charstep_utf8 c1 r1 H1) as E1. rewrite E, charstep_utf8 in E1 by auto. injection E1; auto. Qed.
Theorem C32_prefix_free (c1 c2 : N) (r1 r2 : list byte) : c1 < 0x200000 -> c2 < 0x200000 ->
  utf8 c1 ++ r1 = utf8 c2 ++ r2 -> c1 = c2 /\ r1 = r2.
Proof. exact (prefix_free c1 c2 r1 r2). Qed.
Print Assumptions C32_prefix_free.

(* C32: on any byte string, valid or not, stepping removes at least one byte from the front and nothing else, so
   iteration by character terminates; on encoded text it visits exactly the encoded characters. *)
Lemma step_progress str : str <> [] -> exists pre, pre <> [] /\ str = pre ++ snd (charstep str).
Proof.
  intros H. destruct (charstep_progress str H) as (n & Hn & E & _). exists (firstn n str). rewrite E. split.
  - intros F. apply (f_equal (@length N)) in F. rewrite firstn_length in F. cbn in F. lia.
  - symmetry. apply firstn_skipn.
Qed.
Theorem C32_step_progress (str : list byte) : str <> [] -> exists pre, pre <> [] /\ str = pre ++ snd (charstep str).
Proof. exact (step_progress str). Qed.
Print Assumptions C32_step_progress.
Theorem C32_iteration_terminates (str : list byte) : exists cs, bychar (S (length str)) str = Some cs.
Proof. apply bychar_terminates. lia. Qed.
Print Assumptions C32_iteration_terminates.
Theorem C32_iteration_visits_characters (cs : list N) : Forall (fun c => c < 0x200000) cs ->
  bychar (S (length (utf8_string cs))) (utf8_string cs) = Some cs.
Proof. intros H. apply bychar_utf8; auto. Qed.
Print Assumptions C32_iteration_visits_characters.
Example C32_iter_case : bychar 12 [0xe2;0x82;0xac;0x41;0xff;0xc3;0xa9;0xe2] = Some [0x20ac;0x41;Badchar;0xe9;Badchar].
Proof. reflexivity. Qed.

(* C32, limit: decoding does not check that it is given UTF-8: over-long forms and missing continuation bytes
   decode to ordinary characters, so distinct byte strings can decode to the same text. *)
Theorem C32_decoding_validates_refuted : exists s1 s2 : list byte, Forall isbyte s1 /\ Forall isbyte s2 /\ s1 <> s2 /\
  bychar (S (length s1)) s1 = bychar (S (length s2)) s2 /\ bychar (S (length s1)) s1 = Some [0x2f; 0x2f].
Proof.
  exists [0xc0; 0xaf; 0x2f], [0x2f; 0xc0; 0x2f]. repeat split; try reflexivity; try discriminate; repeat constructor.
Qed.
Print Assumptions C32_decoding_validates_refuted.

(* C47: for (c, off) : bycharoff(s).  lib/std/striter.myr:100-108 documents off as the offset of the character; the
   code yields the offset just past it. *)
Theorem C47_charoff_yields_ends (cs : list N) : Forall (fun c => c < 0x200000) cs ->
  bycharoff (S (length (utf8_string cs))) (utf8_string cs) 0 = Done (with_ends 0 cs).
Proof. intros H. apply (bycharoff_utf8 cs _ []); auto. Qed.
Print Assumptions C47_charoff_yields_ends.
Theorem C47_charoff_yields_offsets_refuted : exists cs : list N, Forall (fun c => c < 0x200000) cs /\
  forall fuel, bycharoff fuel (utf8_string cs) 0 <> Done (with_offsets 0 cs).
Proof.
  exists [0x1f50; 0x62; 0x1f50; 0x63]. split; [repeat constructor|]. intros fuel.
  do 5 (destruct fuel as [|fuel]; [discriminate|]). discriminate.
Qed.
Print Assumptions C47_charoff_yields_offsets_refuted.
Theorem C47_charoff_safe (str : list byte) : Forall isbyte str -> exists l, bycharoff (S (length str)) str 0 = Done l.
Proof. intros H. apply bycharoff_safe; auto; lia. Qed.
Print Assumptions C47_charoff_safe.
Example C47_case : bycharoff 10 [0xe1;0xbd;0x90;0x62;0xe1;0xbd;0x90;0x63] 0 = Done [(0x1f50,3%nat);(0x62,4%nat);(0x1f50,7%nat);(0x63,8%nat)].
Proof. reflexivity. Qed.

(* C48: graphemestep splits any byte string in two without an out-of-range slice, whatever the width table, and takes
   at least one byte from a non-empty string, so iteration by grapheme terminates and covers the string. *)
Lemma grapheme_ok (cellwidth : N -> Z) (str : list byte) : Forall isbyte str ->
  exists g rest, graphemestep cellwidth (S (length str)) str = Done (g, rest) /\ str = g ++ rest /\ (str <> [] -> g <> []).
Proof.
  intros H. unfold graphemestep. destruct (grapheme_loop_spec cellwidth (S (length str)) str 0) as (n & -> & H1 & H2); auto.
  destruct (Nat.ltb_spec (length str) n); [cbn in H1; lia|].
  exists (firstn n str), (skipn n str). split; auto. split; [symmetry; apply firstn_skipn|].
  intros Hs E. apply (f_equal (@length N)) in E. rewrite firstn_length in E. destruct str; [congruence|]. cbn [length] in *. lia.
Qed.
Theorem C48_grapheme_step (cellwidth : N -> Z) (str : list byte) : Forall isbyte str ->
  exists g rest, graphemestep cellwidth (S (length str)) str = Done (g, rest) /\ str = g ++ rest /\ (str <> [] -> g <> []).
Proof. exact (grapheme_ok cellwidth str). Qed.
Print Assumptions C48_grapheme_step.
Example C48_case : Forall isbyte [0x65;0xcc;0x81;0x66] /\
  graphemestep (fun c => if c <? 0x300 then 1%Z else 0%Z) 5 [0x65;0xcc;0x81;0x66] = Done ([0x65;0xcc;0x81],[0x66]).
Proof. split; [repeat constructor|reflexivity]. Qed.
