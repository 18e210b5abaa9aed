(* Whole blocks: the loop of decomp, the header of a dynamic block, stored blocks. *)
From Verif Require Import Base ListX Utf_Model Bio_Model Bio_Spec Bio_Calls Bio_Proofs Bio_Reads Bio_Write Flate_Spec Flate_Model Flate_Bits Flate_Huff Flate_Block.
From Coq Require Import NArith Lia List.
Import ListNotations.
Open Scope nat_scope.

(* the specification is deterministic *)
Section Det.
Variables (ll dl : list nat).
Lemma item_end o b o1 b1 w b2 : item ll dl o b o1 b1 -> b = w ++ b2 -> ~ codeword ll 256 w.
Proof.
  intros I E C. inversion I as [o_ v t c_ ? C3 Q1 Q2 Q3 Q4|o_ v1 k' y1 v2 d' y2 o'_ c_ C3 K2 Y1 C4 D2 Y2 R4 Q1 Q2 Q3 Q4]; rewrite E in Q2;
    destruct (codeword_unique _ _ _ _ _ _ _ C3 C Q2); lia.
Qed.
Lemma item_undef o b o1 b1 : item ll dl o b o1 b1 -> ~ undefined_symbol ll dl b.
Proof.
  intros I U. inversion I as [o_ v t c_ ? C3 Q1 Q2 Q3 Q4|o_ v1 k y1 v2 d y2 o'_ c_ C3 K2 Y1 C4 D2 Y2 R4 Q1 Q2 Q3 Q4];
    destruct U as [(s & w & b' & E & C & T)|(k' & w1 & x1 & d' & w2 & b' & E & C & K & X & C2 & D)]; rewrite E in Q2;
    destruct (codeword_unique _ _ _ _ _ _ _ C3 C Q2) as [X1 X2]; try lia.
  subst w1. assert (k' = k) by lia. subst k'. apply app_inv_head in Q2. apply app_inj_len in Q2; [|lia]. destruct Q2 as [_ Q2].
  destruct (codeword_unique _ _ _ _ _ _ _ C4 C2 Q2). lia.
Qed.
Lemma end_undef w b : codeword ll 256 w -> ~ undefined_symbol ll dl (w ++ b).
Proof.
  intros C3 [(s & v & b' & E & C & T)|(k' & w1 & x1 & d' & w2 & b' & E & C & _)]; destruct (codeword_unique _ _ _ _ _ _ _ C3 C E); lia.
Qed.
Lemma items_det o b o1 b1 o2 b2 : items ll dl o b o1 b1 -> items ll dl o b o2 b2 -> items ll dl o1 b1 o2 b2 \/ items ll dl o2 b2 o1 b1.
Proof.
  intros H. revert o2 b2. induction H as [o b|o b o3 b3 o1 b1 I H IH]; intros o2 b2 H2; [auto|].
  inversion H2; subst; [right; econstructor; eauto|].
  match goal with I' : item ll dl o b _ _ |- _ => destruct (item_unique ll dl _ _ _ _ _ _ I I'); subst end. auto.
Qed.
Lemma compressed_unique o b o1 b1 o2 b2 : compressed ll dl o b o1 b1 -> compressed ll dl o b o2 b2 -> o1 = o2 /\ b1 = b2.
Proof.
  assert (ST : forall o b w o' b', items ll dl o (w ++ b) o' b' -> codeword ll 256 w -> o' = o /\ b' = w ++ b).
  { intros o0 b0 w o' b' I C. inversion I; subst; auto. exfalso. eapply item_end; eauto. }
  intros (w & I1 & C1) (v & I2 & C2). assert (X : o1 = o2 /\ w ++ b1 = v ++ b2).
  { destruct (items_det _ _ _ _ _ _ I1 I2) as [I|I]; destruct (ST _ _ _ _ _ I ltac:(assumption)); auto. }
  destruct X as [-> E]. destruct (codeword_unique _ _ _ _ _ _ _ C1 C2 E) as [_ ->]. apply app_inv_head in E. auto.
Qed.
Lemma compressed_undef o b o1 b1 o2 b2 : compressed ll dl o b o1 b1 -> items ll dl o b o2 b2 -> ~ undefined_symbol ll dl b2.
Proof.
  intros (w & I1 & C1) I2 U. destruct (items_det _ _ _ _ _ _ I1 I2) as [I|I]; inversion I; subst.
  - apply (end_undef _ _ C1 U).
  - eapply item_end; eauto.
  - apply (end_undef _ _ C1 U).
  - eapply item_undef; eauto.
Qed.
Lemma codeword_ne lens s w : codeword lens s w -> 1 <= length w.
Proof. intros (l & _ & L & E & _). lia. Qed.
Lemma item_len o b o1 b1 : item ll dl o b o1 b1 -> length b1 < length b.
Proof. destruct 1 as [o w s b S C|o w1 k x1 w2 d x2 o' b C]; rewrite !app_length; pose proof (codeword_ne _ _ _ C); lia. Qed.
Lemma items_len o b o1 b1 : items ll dl o b o1 b1 -> length b1 <= length b.
Proof. induction 1 as [|? ? ? ? ? ? I]; [lia|]. apply item_len in I. lia. Qed.
Lemma compressed_len o b o1 b1 : compressed ll dl o b o1 b1 -> length b1 <= length b.
Proof. intros (w & I & _). apply items_len in I. rewrite app_length in I. lia. Qed.
End Det.

Section Dec.
Variables (old : list N) (p : nat).

Lemma decomp_loop_spec ll dl lh dh : hc_ok ll lh -> hc_ok dl dh -> Forall (fun l => l <= 15) ll -> Forall (fun l => l <= 15) dl ->
  forall fuel st b o, ok old p st b o -> length b < fuel ->
  (exists o' b' st', compressed ll dl o b o' b' /\ decomp_loop fuel lh dh st = FOk tt st' /\ ok old p st' b' o') \/
  (exists o2 b2, items ll dl o b o2 b2 /\ undefined_symbol ll dl b2 /\ decomp_loop fuel lh dh st = FAbort) \/
  ((exists e, decomp_loop fuel lh dh st = FErr e) /\ (forall o' b', ~ compressed ll dl o b o' b') /\
   forall o2 b2, items ll dl o b o2 b2 -> ~ undefined_symbol ll dl b2).
Proof.
  intros HL HD FL FD. induction fuel as [|fuel IH]; intros st b o O L; [lia|].
  destruct (decomp_step old p ll dl lh dh HL HD FL FD fuel st b o O) as [(o1 & b1 & st1 & I & O1 & E)|[(w & b1 & st1 & E1 & C & O1 & E)|[(U & E)|((e & E) & N1 & N2 & N3)]]].
  - rewrite E. pose proof (item_len _ _ _ _ _ _ I) as LB. destruct (IH st1 b1 o1 O1 ltac:(lia)) as [(o' & b' & st' & (w & C & CE) & R)|[(o2 & b2 & I2 & U & R)|(R & NC & NU)]].
    + left. exists o', b', st'. split; [|exact R]. exists w. split; [econstructor; eauto|exact CE].
    + right. left. exists o2, b2. split; [econstructor; eauto|auto].
    + right. right. split; [exact R|]. split.
      * intros o' b' (w & C & CE). inversion C as [|? ? o3 b3 ? ? I3 C3]; subst.
        -- apply (item_end _ _ _ _ _ _ _ _ I eq_refl CE).
        -- destruct (item_unique ll dl _ _ _ _ _ _ I I3); subst. apply (NC o' b'). exists w. auto.
      * intros o2 b2 C. inversion C as [|? ? o3 b3 ? ? I3 C3]; subst; [apply (item_undef _ _ _ _ _ _ I)|].
        destruct (item_unique ll dl _ _ _ _ _ _ I I3); subst. apply (NU _ _ C3).
  - left. exists o, b1, st1. split; [|auto]. exists w. split; [rewrite E1; constructor|exact C].
  - right. left. exists o, b. split; [constructor|auto].
  - right. right. split; [eauto|]. split.
    + intros o' b' (w & C & CE). inversion C; subst; [eapply N2; eauto|eapply N1; eauto].
    + intros o2 b2 C. inversion C; subst; [exact N3|]. exfalso. eapply N1; eauto.
Qed.
Lemma enough_spec st b o : ok old p st b o -> length b < enough st.
Proof.
  intros (s & R & E & _ & BP & _). unfold enough. subst b. rewrite app_length, skipn_length, bitstream_length. change (length (bits_of_byte (bval st))) with 8.
  assert (A : avail (rdf st) = length s); [|lia]. destruct R as (W & _ & _ & _ & <- & _). unfold stream, rest. rewrite app_length, held_length, skipn_length by exact W. reflexivity.
Qed.

(* stored blocks *)
Lemma aligned st b o : ok old p st b o -> length b mod 8 = 0 -> bpos st = 8 /\ exists s, reader (rdf st) s /\ b = bitstream s.
Proof.
  intros (s & R & E & _ & BP & _) M. rewrite E, app_length, skipn_length, bitstream_length in M. change (length (bits_of_byte (bval st))) with 8 in M.
  assert (B8 : bpos st = 8). { rewrite Nat.mul_comm, Nat.mod_add, Nat.mod_small in M by lia. lia. }
  split; [exact B8|]. exists s. split; [exact R|]. rewrite E, B8, skipn_all2 by (change (length (bits_of_byte (bval st))) with 8; lia). reflexivity.
Qed.
Lemma bits8_inj b c : (b < 256)%N -> (c < 256)%N -> bits_of_byte b = bits_of_byte c -> b = c.
Proof. intros B C E. rewrite <- (bits8_lsb b B), <- (bits8_lsb c C), E. reflexivity. Qed.
Lemma bitstream_prefix s : forall t x, Forall (fun x => (x < 256)%N) s -> Forall (fun x => (x < 256)%N) t -> bitstream t = bitstream s ++ x -> s = firstn (length s) t /\ x = bitstream (skipn (length s) t).
Proof.
  induction s as [|b s IH]; intros t x FS FT E; [cbn; auto|]. destruct t as [|c t].
  { apply (f_equal (@length _)) in E. rewrite app_length, !bitstream_length in E. cbn in E. lia. }
  rewrite !bitstream_cons, <- app_assoc in E. apply app_inj_len in E; [|reflexivity]. destruct E as [E1 E2]. inversion FS; subst. inversion FT; subst.
  apply bits8_inj in E1; auto. subst c. destruct (IH t x) as [A B]; auto. cbn [length firstn skipn]. rewrite <- A. auto.
Qed.
Lemma lsb_negb n : lsb (map negb n) + lsb n = 2 ^ length n - 1.
Proof.
  induction n as [|b n IH]; [reflexivity|]. cbn [map lsb length Nat.pow]. pose proof (Nat.pow_nonzero 2 (length n)). destruct b; cbn [negb Nat.b2n]; lia.
Qed.
Lemma lxor_negb n c : length n = 16 -> length c = 16 -> (N.of_nat (lsb n) =? N.lxor (N.of_nat (lsb c)) 0xffff)%N = true <-> c = map negb n.
Proof.
  intros LN LC. rewrite N.eqb_eq. pose proof (lsb_negb n) as A. pose proof (lsb_bound c) as B. rewrite LN in A. rewrite LC in B.
  assert (P : 2 ^ 16 = N.to_nat 65536) by reflexivity. rewrite P in *.
  assert (X : (N.of_nat (lsb c) + N.lxor (N.of_nat (lsb c)) 0xffff = 0xffff)%N).
  { change 65535%N with (N.ones 16). apply (N.add_lnot_diag_low (N.of_nat (lsb c)) 16). destruct (N.eq_dec (N.of_nat (lsb c)) 0) as [->|Z]; [reflexivity|].
    apply N.log2_lt_pow2; [lia|]. change (2 ^ 16)%N with 65536%N. lia. }
  split.
  - intros E. apply lsb_inj; [rewrite map_length; lia|]. lia.
  - intros ->. lia.
Qed.
Lemma skip_align st b o : ok old p st b o -> exists st', setbpos 8 st = FOk tt st' /\ ok old p st' (skipn (length b mod 8) b) o /\ length (skipn (length b mod 8) b) mod 8 = 0.
Proof.
  intros (s & R & E & BV & BP & W & Q & WI). eexists. split; [reflexivity|].
  assert (S : skipn (length b mod 8) b = bitstream s).
  { set (T := skipn (bpos st) (bits_of_byte (bval st))) in *. assert (LT : length T = 8 - bpos st) by (unfold T; rewrite skipn_length; reflexivity).
    rewrite E, app_length, bitstream_length, LT. rewrite Nat.mul_comm, Nat.mod_add, Nat.mod_small by lia. rewrite <- LT. apply skipn_app_exact. }
  rewrite S. split; [|rewrite bitstream_length, Nat.mul_comm; apply Nat.mod_mul; lia]. exists s. cbn [rdf wrf bval bpos wpos wlen win].
  split; [exact R|]. split; [rewrite skipn_all2 by (change (length (bits_of_byte (bval st))) with 8; lia); reflexivity|]. split; [exact BV|]. split; [lia|]. auto.
Qed.
Definition stored (o : list N) (b : list bool) (o' : list N) (b' : list bool) : Prop := block o (false :: false :: b) o' b'.
Lemma mod8_sub a b : b mod 8 = 0 -> (a + b) mod 8 = 0 -> a mod 8 = 0.
Proof. intros B A. rewrite Nat.add_mod, B, Nat.add_0_r, Nat.mod_mod in A by lia. exact A. Qed.
Lemma nocomp_spec st b o : ok old p st b o ->
  (exists o' b' st', stored o b o' b' /\ nocomp st = FOk tt st' /\ ok old p st' b' o') \/
  ((exists e, nocomp st = FErr e) /\ forall o' b', ~ stored o b o' b').
Proof.
  intros O. remember (nocomp st) as r eqn:ER. unfold nocomp in ER. unfold bind at 1 in ER. destruct (skip_align st b o O) as (st1 & E1 & O1 & M). rewrite E1 in ER.
  unfold bind at 1 in ER. set (b1 := skipn (length b mod 8) b) in *.
  assert (INV : forall o' b', stored o b o' b' -> exists n c s, b1 = n ++ c ++ bitstream s ++ b' /\ length n = 16 /\ c = map negb n /\
    Forall (fun x => (x < 256)%N) s /\ length s = lsb n /\ o' = o ++ s).
  { intros o' b' H. inversion H; subst. exists n, (map negb n), s. auto 10. }
  destruct (bits_spec old p 16 st1 b1 o O1 ltac:(lia)) as [(n & b2 & st2 & LN & E2 & R2 & O2)|(LB & e & R2)]; rewrite R2 in ER.
  2:{ right. split; [eauto|]. intros o' b' H. destruct (INV o' b' H) as (n & c & s & E & L & _). rewrite E, app_length in LB. lia. }
  unfold bind at 1 in ER.
  destruct (bits_spec old p 16 st2 b2 o O2 ltac:(lia)) as [(c & b3 & st3 & LC & E3 & R3 & O3)|(LB & e & R3)]; rewrite R3 in ER.
  2:{ right. split; [eauto|]. intros o' b' H. destruct (INV o' b' H) as (n' & c & s & E & L & EC & _). rewrite E2 in E. apply app_inj_len in E; [|lia]. destruct E as [<- E].
      rewrite E, EC, app_length, map_length in LB. lia. }
  pose proof (lxor_negb n c LN LC) as X. destruct (N.of_nat (lsb n) =? N.lxor (N.of_nat (lsb c)) 0xffff)%N.
  - pose proof (proj1 X eq_refl) as EC. assert (M3 : length b3 mod 8 = 0).
    { rewrite E2, E3, !app_length, LN, LC in M. apply (mod8_sub (length b3) 32); [reflexivity|]. replace (length b3 + 32) with (16 + (16 + length b3)) by lia. exact M. }
    destruct (aligned st3 b3 o O3 M3) as (B8 & s & R & E4). assert (FS : Forall (fun x => (x < 256)%N) s) by apply R.
    rewrite E4 in O3. destruct (copyin_spec old p (lsb n) st3 s o R O3 B8) as [(st' & L & E & O')|(L & e & E)]; rewrite E in ER.
    + left. exists (o ++ firstn (lsb n) s), (bitstream (skipn (lsb n) s)), st'. split; [|auto].
      apply (B_stored o b n c (firstn (lsb n) s)); auto.
      * fold b1. rewrite E2, E3, E4, <- bitstream_app, firstn_skipn. reflexivity.
      * rewrite <- (firstn_skipn (lsb n) s) in FS. apply Forall_app in FS. apply FS.
      * rewrite firstn_length. lia.
    + right. split; [eauto|]. intros o' b' H. destruct (INV o' b' H) as (n' & c' & s' & E' & L' & EC' & _ & LS & _). rewrite E2 in E'. apply app_inj_len in E'; [|lia]. destruct E' as [<- E'].
      rewrite E3 in E'. apply app_inj_len in E'; [|subst; rewrite map_length; lia]. destruct E' as [_ E']. rewrite E4 in E'.
      apply (f_equal (@length _)) in E'. rewrite app_length, !bitstream_length in E'. lia.
  - right. split; [unfold fail in ER; eauto|]. intros o' b' H. destruct (INV o' b' H) as (n' & c' & s' & E' & L' & EC' & _). rewrite E2 in E'. apply app_inj_len in E'; [|lia]. destruct E' as [<- E'].
    rewrite E3 in E'. apply app_inj_len in E'; [|subst; rewrite map_length; lia]. destruct E' as [<- _]. apply X in EC'. discriminate.
Qed.

(* the header of a dynamic block *)
Section Lens.
Variables (cl : list nat) (hc : hufc) (total : nat).
Hypothesis (HC : hc_ok cl hc) (FC : Forall (fun l => l <= 15) cl).
Lemma lenloop_spec fuel : forall st b o acc, ok old p st b o -> total - length acc < fuel -> length acc <= total -> Forall (fun l => l <= 15) acc ->
  (exists r b' st', lengths cl total acc b r b' /\ lenloop fuel hc total acc st = FOk r st' /\ ok old p st' b' o /\ Forall (fun l => l <= 15) r) \/
  ((exists e, lenloop fuel hc total acc st = FErr e) /\ forall r b', ~ lengths cl total acc b r b').
Proof.
  induction fuel as [|fuel IH]; intros st b o acc O F LA FA; [lia|]. remember (lenloop (S fuel) hc total acc st) as r eqn:ER. cbn [lenloop] in ER.
  destruct (Nat.ltb_spec (length acc) total) as [L|L].
  2:{ left. exists acc, b, st. split; [constructor; lia|]. auto. }
  unfold bind at 1 in ER. destruct (readcode_spec old p cl hc HC FC st b o O) as [(w & s & b1 & st1 & E & CW & R & O1)|[(e & R) NW]]; rewrite R in ER.
  2:{ right. split; [eauto|]. intros r' b' H. inversion H; subst; try lia; eapply NW; eauto. }
  (* how lengths can go on *)
  assert (INV : forall r b', lengths cl total acc b r b' ->
     (s < 16 /\ lengths cl total (acc ++ [s]) b1 r b') \/
     (s = 16 /\ exists a q x b2, acc = a ++ [q] /\ b1 = x ++ b2 /\ length x = 2 /\ length acc + (3 + lsb x) <= total /\ lengths cl total (acc ++ repeat q (3 + lsb x)) b2 r b') \/
     (s = 17 /\ exists x b2, b1 = x ++ b2 /\ length x = 3 /\ length acc + (3 + lsb x) <= total /\ lengths cl total (acc ++ repeat 0 (3 + lsb x)) b2 r b') \/
     (s = 18 /\ exists x b2, b1 = x ++ b2 /\ length x = 7 /\ length acc + (11 + lsb x) <= total /\ lengths cl total (acc ++ repeat 0 (11 + lsb x)) b2 r b')).
  { intros r' b' H. inversion H as [a_ b_ A1 A2 A3 A4 A5|a_ w_ s_ b_ r_ b'_ A1 A2 A3 A4 A5 A6 A7 A8|a_ q w_ x b_ r_ b'_ A1 A2 A3 A4 A5 A6 A7 A8|a_ w_ x b_ r_ b'_ A1 A2 A3 A4 A5 A6 A7 A8|a_ w_ x b_ r_ b'_ A1 A2 A3 A4 A5 A6 A7 A8].
    - subst. lia.
    - rewrite E in A6. destruct (codeword_unique _ _ _ _ _ _ _ A3 CW A6) as [-> ->]. apply app_inv_head in A6. subst b_. left. auto.
    - rewrite E in A6. destruct (codeword_unique _ _ _ _ _ _ _ A1 CW A6) as [<- ->]. apply app_inv_head in A6. right. left. split; [reflexivity|]. exists a_, q, x, b_.
      rewrite A5 in *. auto 10.
    - rewrite E in A6. destruct (codeword_unique _ _ _ _ _ _ _ A1 CW A6) as [<- ->]. apply app_inv_head in A6. right. right. left. split; [reflexivity|]. exists x, b_. auto 10.
    - rewrite E in A6. destruct (codeword_unique _ _ _ _ _ _ _ A1 CW A6) as [<- ->]. apply app_inv_head in A6. right. right. right. split; [reflexivity|]. exists x, b_. auto 10. }
  destruct (Nat.ltb_spec 18 s) as [S1|S1].
  { right. split; [unfold fail in ER; eauto|]. intros r' b' H. destruct (INV r' b' H) as [[? _]|[[? _]|[[? _]|[? _]]]]; lia. }
  destruct (Nat.ltb_spec s 16) as [S2|S2].
  { destruct (IH st1 b1 o (acc ++ [s])) as [(r' & b' & st' & H & A)|(A & NL)]; auto.
    - rewrite app_length. cbn. lia.
    - rewrite app_length. cbn. lia.
    - apply Forall_app. split; [exact FA|]. constructor; [lia|constructor].
    - left. exists r', b', st'. rewrite ER. split; [|exact A]. rewrite E. apply (L_len cl total acc w s b1); auto.
    - right. rewrite ER. split; [exact A|]. intros r' b' H. destruct (INV r' b' H) as [[_ H']|[[? _]|[[? _]|[? _]]]]; try lia. apply (NL _ _ H'). }
  assert (XB : exists xb, nth_error [2; 3; 7] (s - 16) = Some xb /\ xb <= 7 /\ (s = 16 -> xb = 2) /\ (s = 17 -> xb = 3) /\ (s = 18 -> xb = 7)).
  { assert (s = 16 \/ s = 17 \/ s = 18) as [->|[->| ->]] by lia; cbn; eexists; (split; [reflexivity|]); lia. }
  destruct XB as (xb & XB & XL & X16 & X17 & X18). unfold bind at 1 in ER. rewrite (lookup_some _ _ _ _ XB) in ER. unfold bind at 1 in ER.
  destruct (bits_any old p xb st1 b1 o O1 ltac:(lia)) as [(x & b2 & st2 & LX & E2 & R2 & O2)|(LB & e & R2)]; rewrite R2 in ER.
  2:{ right. split; [eauto|]. intros r' b' H.
      destruct (INV r' b' H) as [[? _]|[[? (a & q & x & b2 & _ & Q & LX & _)]|[[? (x & b2 & Q & LX & _)]|[? (x & b2 & Q & LX & _)]]]]; try lia;
        rewrite Q, app_length in LB; lia. }
  assert (XI : forall y c, b1 = y ++ c -> length y = xb -> y = x /\ c = b2).
  { intros y c Q LY. rewrite E2 in Q. apply app_inj_len in Q; [|lia]. destruct Q; auto. }
  destruct (Nat.eqb_spec s 16) as [S3|S3].
  { destruct (Nat.eqb_spec (length acc) 0) as [A0|A0]; cbn [orb] in ER.
    { right. split; [exists Format; exact ER|]. intros r' b' H.
      destruct (INV r' b' H) as [[? _]|[[_ (a & q & y & c & Q & _)]|[[? _]|[? _]]]]; try lia. rewrite Q, app_length in A0. cbn in A0. lia. }
    assert (EL : acc = removelast acc ++ [last acc 0]) by (apply app_removelast_last; intros ->; apply A0; reflexivity).
    destruct (Nat.ltb_spec total (length acc + (lsb x + 3))) as [T|T].
    { right. split; [unfold fail in ER; eauto|]. intros r' b' H.
      destruct (INV r' b' H) as [[? _]|[[_ (a & q & y & c & _ & Q & LY & LT & _)]|[[? _]|[? _]]]]; try lia. destruct (XI y c Q ltac:(lia)) as [-> _]. lia. }
    destruct (IH st2 b2 o (acc ++ repeat (last acc 0) (lsb x + 3))) as [(r' & b' & st' & H & A)|(A & NL)]; auto.
    - rewrite app_length, repeat_length. lia.
    - rewrite app_length, repeat_length. lia.
    - apply Forall_app. split; [exact FA|]. apply Forall_forall. intros y Y. apply repeat_spec in Y. subst y. rewrite EL in FA. apply Forall_app in FA. destruct FA as [_ FA]. inversion FA; assumption.
    - left. exists r', b', st'. rewrite ER. split; [|exact A]. rewrite E, E2. 
      pose proof (L_copy cl total (removelast acc) (last acc 0) w x b2 r' b') as LC. rewrite <- EL in LC. apply LC; [rewrite <- S3; exact CW|lia|lia|].
      rewrite (Nat.add_comm 3). exact H.
    - right. rewrite ER. split; [exact A|]. intros r' b' H. destruct (INV r' b' H) as [[? _]|[[_ (a & q & y & c & EQ & Q & LY & LT & H')]|[[? _]|[? _]]]]; try lia.
      destruct (XI y c Q ltac:(lia)) as [-> ->]. rewrite EQ, last_last, <- EQ, (Nat.add_comm (lsb x)) in NL. apply (NL _ _ H'). }
  set (m := if s =? 17 then lsb x + 3 else lsb x + 11) in *.
  assert (MV : (s = 17 -> m = 3 + lsb x) /\ (s = 18 -> m = 11 + lsb x) /\ 1 <= m) by (unfold m; destruct (Nat.eqb_spec s 17); lia).
  destruct MV as (M17 & M18 & M1). clearbody m.
  destruct (Nat.ltb_spec total (length acc + m)) as [T|T].
  { right. split; [unfold fail in ER; eauto|]. intros r' b' H.
    destruct (INV r' b' H) as [[? _]|[[? _]|[[S4 (y & c & Q & LY & LT & _)]|[S4 (y & c & Q & LY & LT & _)]]]]; try lia;
      destruct (XI y c Q ltac:(lia)) as [-> _]; lia. }
  destruct (IH st2 b2 o (acc ++ repeat 0 m)) as [(r' & b' & st' & H & A)|(A & NL)]; auto.
  - rewrite app_length, repeat_length. lia.
  - rewrite app_length, repeat_length. lia.
  - apply Forall_app. split; [exact FA|]. apply Forall_forall. intros y Y. apply repeat_spec in Y. lia.
  - left. exists r', b', st'. rewrite ER. split; [|exact A]. rewrite E, E2. assert (s = 17 \/ s = 18) as [S4|S4] by lia; rewrite S4 in CW.
    + apply L_zero3; [exact CW|lia|lia|]. rewrite <- (M17 S4). exact H.
    + apply L_zero11; [exact CW|lia|lia|]. rewrite <- (M18 S4). exact H.
  - right. rewrite ER. split; [exact A|]. intros r' b' H.
    destruct (INV r' b' H) as [[? _]|[[? _]|[[S4 (y & c & Q & LY & LT & H')]|[S4 (y & c & Q & LY & LT & H')]]]]; try lia;
      destruct (XI y c Q ltac:(lia)) as [-> ->]; [rewrite (M17 S4) in NL|rewrite (M18 S4) in NL]; apply (NL _ _ H').
Qed.
End Lens.
End Dec.
