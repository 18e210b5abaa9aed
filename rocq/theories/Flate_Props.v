(* C83, C84: decompression of DEFLATE streams. *)
From Verif Require Import Base ListX Utf_Model Bio_Model Bio_Spec Bio_Calls Bio_Proofs Bio_Reads Bio_Write Bio_Props Flate_Spec Flate_Model Flate_Bits Flate_Huff Flate_Block Flate_Dyn Flate_Top.
From Coq Require Import NArith Lia List.
Import ListNotations.
Open Scope nat_scope.

(* the bits of a file from an offset on *)
Definition bits_from (at_ : nat) (content : list N) : list bool := bitstream (skipn at_ content).

Lemma start_ok w content at_ evs r old p oevs : Forall (fun b => (b < 256)%N) content -> faultless evs -> faultless oevs ->
  ok old p (mkdec (mk true w (mkdev content at_ evs)) (mk r true (mkdev old p oevs)) 0 8 0 0 (repeat 0%N WinSz)) (bits_from at_ content) [].
Proof.
  intros B F FO. exists (skipn at_ content). cbn [rdf wrf bval bpos wpos wlen win]. split; [apply mk_reader; assumption|].
  split; [rewrite skipn_all2 by (change (length (bits_of_byte 0)) with 8; lia); reflexivity|]. split; [lia|]. split; [lia|].
  split; [apply mk_writer|]. split; [exact FO|]. unfold window. rewrite repeat_length. cbn [length]. repeat split; lia.
Qed.
(* the three ways decode can end *)
Lemma decode_cases w content at_ evs r old p oevs : Forall (fun b => (b < 256)%N) content -> faultless evs -> faultless oevs ->
  (exists o rest st, inflates (bits_from at_ content) o rest /\
     decode (mk r true (mkdev old p oevs)) (mk true w (mkdev content at_ evs)) = FOk tt st /\ ok old p st rest o) \/
  (undefined_in_fixed (bits_from at_ content) /\ decode (mk r true (mkdev old p oevs)) (mk true w (mkdev content at_ evs)) = FAbort) \/
  ((exists e, decode (mk r true (mkdev old p oevs)) (mk true w (mkdev content at_ evs)) = FErr e) /\
   (forall o rest, ~ inflates (bits_from at_ content) o rest) /\ ~ undefined_in_fixed (bits_from at_ content)).
Proof.
  intros B F FO. pose proof (start_ok w content at_ evs r old p oevs B F FO) as O. unfold decode.
  destruct (decode_loop_spec old p _ _ _ _ O (enough_spec old p _ _ _ O)) as [(o1 & b1 & o' & b' & st' & H1 & H2 & E & O')|[(o1 & b1 & fi & o2 & b2 & H1 & H2 & U & E)|(E & N1 & N2)]].
  - left. exists o', b', st'. split; [exists o1, b1; auto|auto].
  - right. left. split; [exists o1, b1, fi, o2, b2; auto|exact E].
  - right. right. split; [exact E|]. split.
    + intros o rest (q & c & H1 & H2). apply (N1 _ _ _ _ H1 H2).
    + intros (q & c & fi & o2 & b2 & H1 & H2 & U). apply (N2 _ _ _ _ _ H1 H2 U).
Qed.

(* C83: a stream for the bytes o is decompressed into exactly these bytes, and no byte behind the one in which it ends
   is used up. *)
Theorem C83_decompresses (w r : bool) (content : list N) (at_ : nat) (evs : list event) (old : list N) (p : nat) (oevs : list event) (o : list N) (rest : list bool) :
  Forall (fun b => (b < 256)%N) content -> faultless evs -> faultless oevs -> inflates (bits_from at_ content) o rest ->
  exists st d x tail,
    decode (mk r true (mkdev old p oevs)) (mk true w (mkdev content at_ evs)) = FOk tt st /\
    close (wrf st) = Done (d, true) /\ holds old p o (data d) /\
    rest = x ++ bitstream tail /\ length x < 8 /\
    (tail <> [] -> exists f, call (rdf st) (ORead (length tail)) = Done (f, ABytes tail)).
Proof.
  intros B F FO I. destruct (decode_cases w content at_ evs r old p oevs B F FO) as [(o' & rest' & st & I' & E & O)|[(U & _)|(_ & N & _)]].
  2:{ exfalso. apply (inflates_defined _ _ _ I U). } 2:{ exfalso. apply (N _ _ I). }
  destruct (inflates_unique _ _ _ _ _ I I') as [-> ->]. destruct O as (s & R & ER & BV & BP & W & Q & _).
  destruct (close_spec _ _ _ _ W) as (d & b & EC & D & QC). specialize (QC Q). subst b.
  exists st, d, (skipn (bpos st) (bits_of_byte (bval st))), s. split; [exact E|]. split; [exact EC|]. split; [rewrite D by reflexivity; apply putat_holds|].
  split; [exact ER|]. split; [rewrite skipn_length; change (length (bits_of_byte (bval st))) with 8; lia|]. intros NE.
  destruct (call_reads (rdf st) s (ORead (length s)) (ABytes (firstn (length s) s)) (skipn (length s) s) R Logic.I) as (f & EF & _).
  { apply R_read; [destruct s; [congruence|discriminate]|exact NE]. }
  rewrite firstn_all in EF. eauto.
Qed.

(* two streams: "aaaaaaaaaa" in the fixed codes, with a reference, and "aa" in codes of its own *)
Definition fixed_sample : list N := [75; 76; 132; 1; 0; 7]%N.
Definition dynamic_sample : list N := [5; 192; 129; 0; 0; 0; 0; 0; 144; 86; 255; 19; 16]%N.
Ltac word l := exists l; vm_compute; repeat split; repeat constructor.
Lemma repeats_again o d n : 1 <= d <= length o -> forall o1, o1 = again o d n -> repeats o d n o1.
Proof. intros H o1 ->. apply again_repeats. exact H. Qed.
Example C83_fixed_met : inflates (bits_from 0 fixed_sample) (repeat 97%N 10) ([false; false] ++ bitstream [7]%N).
Proof.
  set (b := bits_from 0 fixed_sample). vm_compute in b. subst b. exists [], (tl (bits_from 0 fixed_sample)). split; [vm_compute; apply S_none|].
  apply B_fixed. exists (repeat false 7). split; [|word 7].
  eapply I_more. { apply (I_lit _ _ _ [true; false; false; true; false; false; false; true] 97); [lia|word 8]. }
  eapply I_more. { apply (I_lit _ _ _ [true; false; false; true; false; false; false; true] 97); [lia|word 8]. }
  eapply I_more. { apply (I_ref _ _ _ [false; false; false; false; true; true; false] 5 [] [false; false; false; false; false] 0 []); try lia; try reflexivity; [word 7|word 5|].
    apply repeats_again; [cbn; lia|reflexivity]. }
  apply I_none.
Qed.
Definition of_bits (s : list nat) : list bool := map (fun x => x =? 1) s.
Example C83_dynamic_met : inflates (bits_from 0 dynamic_sample) [97; 97]%N (of_bits [0; 0; 0]).
Proof.
  set (cl := [0; 1; 0; 0; 0; 0; 0; 0; 0; 0; 0; 0; 0; 0; 0; 0; 0; 0; 1]).
  set (all := repeat 0 97 ++ [1] ++ repeat 0 (11 + 127) ++ repeat 0 (11 + 9) ++ [1; 1]).
  exists [], (tl (bits_from 0 dynamic_sample)). split; [vm_compute; apply S_none|].
  assert (W0 : codeword cl 1 [false]) by word 1. assert (W1 : codeword cl 18 [true]) by word 1.
  assert (HL : header (skipn 3 (bits_from 0 dynamic_sample)) (firstn 257 all) (skipn 257 all) (of_bits [0; 0; 1; 0; 0; 0])).
  { exists (repeat false 5), (repeat false 5), (of_bits [0; 1; 1; 1]),
      (map of_bits ([[0; 0; 0]; [0; 0; 0]; [1; 0; 0]] ++ repeat [0; 0; 0] 14 ++ [[1; 0; 0]])), cl, all, (skipn (3 + 14 + 54) (bits_from 0 dynamic_sample)).
    split; [reflexivity|]. split; [reflexivity|]. split; [reflexivity|]. split; [reflexivity|]. split; [vm_compute; repeat constructor|].
    split; [vm_compute; reflexivity|]. split; [vm_compute; lia|]. split; [vm_compute; lia|].
    split. { split; [reflexivity|]. intros i Hi. do 19 (destruct i as [|i]; [vm_compute; reflexivity|]). lia. }
    split; [|split; [vm_compute; discriminate|split; reflexivity]].
    apply (L_zero11 cl _ [] [true] (of_bits [0; 1; 1; 0; 1; 0; 1]) (skipn (71 + 8) (bits_from 0 dynamic_sample))); [exact W1|reflexivity|vm_compute; lia|].
    apply (L_len cl _ _ [false] 1 (skipn (71 + 9) (bits_from 0 dynamic_sample))); [vm_compute; lia|lia|exact W0|].
    apply (L_zero11 cl _ _ [true] (of_bits [1; 1; 1; 1; 1; 1; 1]) (skipn (71 + 17) (bits_from 0 dynamic_sample))); [exact W1|reflexivity|vm_compute; lia|].
    apply (L_zero11 cl _ _ [true] (of_bits [1; 0; 0; 1; 0; 0; 0]) (skipn (71 + 25) (bits_from 0 dynamic_sample))); [exact W1|reflexivity|vm_compute; lia|].
    apply (L_len cl _ _ [false] 1 (skipn (71 + 26) (bits_from 0 dynamic_sample))); [vm_compute; lia|lia|exact W0|].
    apply (L_len cl _ _ [false] 1 (skipn (71 + 27) (bits_from 0 dynamic_sample))); [vm_compute; lia|lia|exact W0|].
    apply L_end. vm_compute. reflexivity. }
  replace (tl (bits_from 0 dynamic_sample)) with (false :: true :: skipn 3 (bits_from 0 dynamic_sample)) by (vm_compute; reflexivity).
  eapply B_dynamic; [exact HL|]. exists [true]. split; [|word 1].
  eapply I_more. { apply (I_lit _ _ _ [false] 97); [lia|word 1]. }
  eapply I_more. { apply (I_lit _ _ _ [false] 97); [lia|word 1]. }
  apply I_none.
Qed.
Print Assumptions C83_decompresses.

(* C84: what is no stream is refused, what is accepted is one; the function always returns unless a block in the fixed
   codes holds a word for a symbol that stands for nothing. *)
Theorem C84_answers_partial (w r : bool) (content : list N) (at_ : nat) (evs : list event) (old : list N) (p : nat) (oevs : list event) :
  Forall (fun b => (b < 256)%N) content -> faultless evs -> faultless oevs -> ~ undefined_in_fixed (bits_from at_ content) ->
  let answer := decode (mk r true (mkdev old p oevs)) (mk true w (mkdev content at_ evs)) in
  ((exists st, answer = FOk tt st) <-> exists o rest, inflates (bits_from at_ content) o rest) /\
  ((exists e, answer = FErr e) <-> forall o rest, ~ inflates (bits_from at_ content) o rest).
Proof.
  intros B F FO NU. cbv zeta. destruct (decode_cases w content at_ evs r old p oevs B F FO) as [(o & rest & st & I & E & O)|[(U & _)|((e & E) & N & _)]]; [|contradiction|]; rewrite E; split; split.
  - eauto.
  - eauto.
  - intros (e & H). discriminate H.
  - intros H. exfalso. apply (H _ _ I).
  - intros (st & H). discriminate H.
  - intros (o & rest & H). exfalso. apply (N _ _ H).
  - intros _. exact N.
  - eauto.
Qed.
Print Assumptions C84_answers_partial.
(* ... and then it is stopped, by an index past the end of a table. *)
Theorem C84_stopped (w r : bool) (content : list N) (at_ : nat) (evs : list event) (old : list N) (p : nat) (oevs : list event) :
  Forall (fun b => (b < 256)%N) content -> faultless evs -> faultless oevs ->
  (decode (mk r true (mkdev old p oevs)) (mk true w (mkdev content at_ evs)) = FAbort <-> undefined_in_fixed (bits_from at_ content)).
Proof.
  intros B F FO. destruct (decode_cases w content at_ evs r old p oevs B F FO) as [(o & rest & st & I & E & O)|[(U & E)|((e & E) & N & NU)]]; rewrite E; split; intros H; try discriminate H; try tauto; try reflexivity.
  exfalso. apply (inflates_defined _ _ _ I H).
Qed.
Print Assumptions C84_stopped.
(* not every input is answered: a last block in the fixed codes that begins with the word of symbol 286 *)
Definition stopping_sample : list N := [27; 3]%N.
Lemma stopping_undefined : undefined_in_fixed (bits_from 0 stopping_sample).
Proof.
  exists [], (skipn 3 (bits_from 0 stopping_sample)), true, [], (skipn 3 (bits_from 0 stopping_sample)).
  split; [vm_compute; apply S_none|]. split; [apply I_none|]. left.
  exists 286, [true; true; false; false; false; true; true; false], (skipn 11 (bits_from 0 stopping_sample)).
  split; [vm_compute; reflexivity|]. split; [word 8|apply Nat.leb_le; reflexivity].
Qed.
Theorem C84_always_answered_refuted : ~ forall content : list N, Forall (fun b => (b < 256)%N) content ->
  exists out, match decode (mk false true (mkdev [] 0 [])) (mk true false (mkdev content 0 [])) with FOk _ st => out = Some st | FErr _ => out = None | _ => False end.
Proof.
  intros H. assert (B : Forall (fun b => (b < 256)%N) stopping_sample) by (repeat constructor). specialize (H _ B).
  assert (E : decode (mk false true (mkdev [] 0 [])) (mk true false (mkdev stopping_sample 0 [])) = FAbort).
  { apply C84_stopped; [exact B|constructor|constructor|exact stopping_undefined]. }
  rewrite E in H. destruct H as (? & []).
Qed.
Print Assumptions C84_always_answered_refuted.
(* both sides of the condition are met: the samples above, and a block of no type *)
Lemma refused_sample : forall o rest, ~ inflates (bits_from 0 [7]%N) o rest.
Proof.
  intros o rest (o1 & b1 & H1 & H2). set (b := bits_from 0 [7]%N) in H1. vm_compute in b. subst b. inversion H1; subst. inversion H2.
Qed.
Example C84_met : ~ undefined_in_fixed (bits_from 0 fixed_sample) /\ ~ undefined_in_fixed (bits_from 0 [7]%N).
Proof.
  split; [intros U; apply (inflates_defined _ _ _ C83_fixed_met U)|].
  intros (o1 & b1 & fi & o2 & b2 & H1 & _). set (b := bits_from 0 [7]%N) in H1. vm_compute in b. subst b. inversion H1.
Qed.
