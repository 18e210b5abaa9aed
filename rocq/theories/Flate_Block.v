(* Compressed blocks: decomp and dynamic. *)
From Verif Require Import Base ListX Utf_Model Bio_Model Bio_Spec Bio_Calls Bio_Proofs Bio_Reads Bio_Write Flate_Spec Flate_Model Flate_Bits Flate_Huff.
From Coq Require Import NArith Lia List.
Import ListNotations.
Open Scope nat_scope.

Lemma len_tables k : nth_error extral k = (if k <? 29 then Some (lenextra k) else None) /\ nth_error basel k = (if k <? 29 then Some (lenbase k) else None).
Proof.
  destruct (Nat.ltb_spec k 29) as [L|L]; [|split; apply nth_error_None; cbn; lia].
  do 29 (destruct k as [|k]; [split; reflexivity|]). lia.
Qed.
Lemma dist_tables k : nth_error extrad k = (if k <? 30 then Some (distextra k) else None) /\ nth_error based k = (if k <? 30 then Some (distbase k) else None).
Proof.
  destruct (Nat.ltb_spec k 30) as [L|L]; [|split; apply nth_error_None; cbn [extrad based map length]; lia].
  split; [do 30 (destruct k as [|k]; [reflexivity|]); lia|].
  unfold based. rewrite nth_error_map.
  assert (A : forallb (fun k => match nth_error [1; 2; 3; 4; 5; 7; 9; 13; 17; 25; 33; 49; 65; 97; 129; 193; 257; 385; 513; 769; 1025; 1537; 2049; 3073; 4097; 6145;
    8193; 12289; 16385; 24577]%N k with Some v => (v =? 1 + fold_right N.add 0 (map (fun j => 2 ^ N.of_nat (distextra j)) (seq 0 k)))%N | None => false end) (seq 0 30) = true) by reflexivity.
  rewrite forallb_forall in A. specialize (A k). destruct (nth_error _ k) as [v|] eqn:EV; [|discriminate A; apply in_seq; lia].
  cbn [option_map]. f_equal. assert (E : (v = 1 + fold_right N.add 0 (map (fun j => 2 ^ N.of_nat (distextra j)) (seq 0 k)))%N) by (apply N.eqb_eq, A, in_seq; lia).
  rewrite E. unfold distbase, list_sum. clear. rewrite N2Nat.inj_add. change (N.to_nat 1) with 1. f_equal.
  induction (seq 0 k) as [|j l IH]; [reflexivity|]. cbn [map fold_right]. rewrite N2Nat.inj_add, IH. f_equal. rewrite N2Nat.inj_pow, Nat2N.id. reflexivity.
Qed.
Lemma lenextra_le k : k < 29 -> lenextra k <= 31.
Proof. intros L. unfold lenextra. destruct (k =? 28); [lia|]. pose proof (Nat.div_le_upper_bound (k - 4) 4 31 ltac:(lia) ltac:(lia)). lia. Qed.
Lemma distextra_le k : k < 30 -> distextra k <= 13.
Proof. intros L. unfold distextra. apply Nat.lt_succ_r. apply Nat.div_lt_upper_bound; lia. Qed.
Global Opaque extral basel extrad based.
Lemma distbase_pos k : 1 <= distbase k.
Proof. unfold distbase. lia. Qed.
Lemma dist_win d x : d < 30 -> length x = distextra d -> distbase d + lsb x <= WinSz.
Proof.
  intros L X. pose proof (lsb_bound x) as B. rewrite X in B. rewrite WinSz_val.
  assert (A : (N.of_nat (distbase d) + 2 ^ N.of_nat (distextra d) <= 32769)%N).
  { unfold distbase, list_sum. assert (E : forall l, N.of_nat (fold_right Nat.add 0 (map (fun j => 2 ^ distextra j) l)) = fold_right N.add 0%N (map (fun j => 2 ^ N.of_nat (distextra j))%N l)).
    { induction l as [|j l IH]; [reflexivity|]. cbn [map fold_right]. rewrite Nat2N.inj_add, IH, Nat2N.inj_pow. reflexivity. }
    rewrite Nat2N.inj_add, E.
    assert (Q : forallb (fun d => (N.of_nat 1 + fold_right N.add 0 (map (fun j => 2 ^ N.of_nat (distextra j)) (seq 0 d)) + 2 ^ N.of_nat (distextra d) <=? 32769)%N) (seq 0 30) = true) by reflexivity.
    rewrite forallb_forall in Q. apply N.leb_le. apply Q. apply in_seq. lia. }
  change 2%N with (N.of_nat 2) in A. rewrite <- Nat2N.inj_pow in A. lia.
Qed.
Arguments lookup : simpl never.
Lemma lookup_some t i v st : nth_error t i = Some v -> lookup t i st = FOk v st.
Proof. intros H. unfold lookup. rewrite H. reflexivity. Qed.
Lemma lookup_none t i st : nth_error t i = None -> lookup t i st = FAbort.
Proof. intros H. unfold lookup. rewrite H. reflexivity. Qed.

Section Block.
Variables (old : list N) (p : nat).

Section Codes.
Variables (ll dl : list nat) (lh dh : hufc).
Hypothesis (HL : hc_ok ll lh) (HD : hc_ok dl dh) (FL : Forall (fun l => l <= 15) ll) (FD : Forall (fun l => l <= 15) dl).

Lemma item_unique o b o1 b1 o2 b2 : item ll dl o b o1 b1 -> item ll dl o b o2 b2 -> o1 = o2 /\ b1 = b2.
Proof.
  intros H1 H2. inversion H1 as [o_ w s b_ S1 C1 E1 E2 E3 E4|o_ w1 k x1 w2 d x2 o'_ b_ C1 K1 X1 C2 D1 X2 R1 E1 E2 E3 E4]; subst;
    inversion H2 as [o_ v t c_ S2 C3 E1 E2 E3 E4|o_ v1 k' y1 v2 d' y2 o'_ c_ C3 K2 Y1 C4 D2 Y2 R2 E1 E2 E3 E4]; subst.
  - destruct (codeword_unique _ _ _ _ _ _ _ C1 C3 (eq_sym E2)) as [-> ->]. apply app_inv_head in E2. auto.
  - destruct (codeword_unique _ _ _ _ _ _ _ C1 C3 (eq_sym E2)) as [-> ->]. lia.
  - destruct (codeword_unique _ _ _ _ _ _ _ C1 C3 (eq_sym E2)) as [X ->]. lia.
  - destruct (codeword_unique _ _ _ _ _ _ _ C1 C3 (eq_sym E2)) as [X ->]. assert (k' = k) by lia. subst k'. apply app_inv_head in E2.
    apply app_inj_len in E2; [|lia]. destruct E2 as [-> E2]. destruct (codeword_unique _ _ _ _ _ _ _ C2 C4 (eq_sym E2)) as [-> ->]. apply app_inv_head in E2.
    apply app_inj_len in E2; [|lia]. destruct E2 as [-> ->]. split; [|reflexivity]. apply (repeats_unique _ _ _ _ _ R1 R2).
Qed.

(* one turn of the loop *)
Lemma decomp_step fuel st b o : ok old p st b o ->
  (exists o1 b1 st1, item ll dl o b o1 b1 /\ ok old p st1 b1 o1 /\ decomp_loop (S fuel) lh dh st = decomp_loop fuel lh dh st1) \/
  (exists w b1 st1, b = w ++ b1 /\ codeword ll 256 w /\ ok old p st1 b1 o /\ decomp_loop (S fuel) lh dh st = FOk tt st1) \/
  (undefined_symbol ll dl b /\ decomp_loop (S fuel) lh dh st = FAbort) \/
  ((exists e, decomp_loop (S fuel) lh dh st = FErr e) /\ (forall o1 b1, ~ item ll dl o b o1 b1) /\ (forall w b1, b = w ++ b1 -> ~ codeword ll 256 w)
   /\ ~ undefined_symbol ll dl b).
Proof.
  intros O. remember (decomp_loop (S fuel) lh dh st) as r eqn:ER. cbn [decomp_loop] in ER. unfold bind at 1 in ER.
  destruct (readcode_spec old p ll lh HL FL st b o O) as [(w & s & b1 & st1 & E & CW & R & O1)|[(e & R) NW]]; rewrite R in ER.
  2:{ right. right. right. split; [eauto|]. split; [|split].
      - intros o1 b1 I. inversion I; subst; eapply NW; eauto.
      - intros w b1 ->. apply (NW w 256 b1 eq_refl).
      - intros [(s & w & b' & -> & C & _)|(k & w1 & x1 & d & w2 & b' & -> & C & _)]; eapply NW; eauto. }
  destruct (Nat.ltb_spec s 256) as [S1|S1].
  { left. unfold bind in ER. destruct (outb_spec old p st1 b1 o (N.of_nat s) O1) as (st2 & E2 & O2 & _). rewrite E2 in ER.
    exists (o ++ [N.of_nat s]), b1, st2. split; [rewrite E; constructor; auto|]. auto. }
  destruct (Nat.eqb_spec s 256) as [->|S2]. { right. left. exists w, b1, st1. auto. }
  set (k := s - 257). assert (SK : s = 257 + k) by (unfold k; lia). destruct (len_tables k) as [T1 T2].
  assert (NEND : forall v c, b = v ++ c -> ~ codeword ll 256 v).
  { intros v c EV CV. rewrite E in EV. destruct (codeword_unique _ _ _ _ _ _ _ CW CV EV). lia. }
  unfold bind at 1 in ER.
  destruct (Nat.ltb_spec k 29) as [K|K].
  2:{ rewrite (lookup_none _ _ _ T1) in ER. right. right. left. split; [|exact ER]. left. exists s, w, b1. repeat split; auto. lia. }
  rewrite (lookup_some _ _ _ _ T1) in ER. unfold bind at 1 in ER.
  destruct (bits_any old p (lenextra k) st1 b1 o O1 (lenextra_le k K)) as [(x & b2 & st2 & LX & E2 & R2 & O2)|(LB & e & R2)]; rewrite R2 in ER.
  2:{ right. right. right. split; [eauto|]. split; [|split; [exact NEND|]].
      - intros o1 c I. inversion I as [o_ v t c_ ? C3 Q1 Q2 Q3 Q4|o_ v1 k' y1 v2 d' y2 o'_ c_ C3 K2 Y1 C4 D2 Y2 R3 Q1 Q2 Q3 Q4]; subst o_.
        + rewrite E in Q2. destruct (codeword_unique _ _ _ _ _ _ _ C3 CW Q2). lia.
        + rewrite E in Q2. destruct (codeword_unique _ _ _ _ _ _ _ C3 CW Q2) as [QK ->]. assert (k' = k) by lia. subst k'. apply app_inv_head in Q2. subst b1.
          rewrite app_length in LB. lia.
      - intros [(t & v & c & EV & C & T)|(k' & v1 & y1 & d' & v2 & c & EV & C & K' & Y1 & C4 & _)]; rewrite E in EV.
        + destruct (codeword_unique _ _ _ _ _ _ _ CW C EV). lia.
        + destruct (codeword_unique _ _ _ _ _ _ _ CW C EV) as [QK <-]. assert (k' = k) by lia. subst k'. apply app_inv_head in EV. subst b1.
          rewrite app_length in LB. lia. }
  unfold bind at 1 in ER. rewrite (lookup_some _ _ _ _ T2) in ER. unfold bind at 1 in ER.
  destruct (readcode_spec old p dl dh HD FD st2 b2 o O2) as [(w2 & d & b3 & st3 & E3 & CD & R3 & O3)|[(e & R3) ND]]; rewrite R3 in ER.
  2:{ right. right. right. split; [eauto|]. split; [|split; [exact NEND|]].
      - intros o1 c I. inversion I as [o_ v t c_ ? C3 Q1 Q2 Q3 Q4|o_ v1 k' y1 v2 d' y2 o'_ c_ C3 K2 Y1 C4 D2 Y2 R4 Q1 Q2 Q3 Q4]; subst o_.
        + rewrite E in Q2. destruct (codeword_unique _ _ _ _ _ _ _ C3 CW Q2). lia.
        + rewrite E in Q2. destruct (codeword_unique _ _ _ _ _ _ _ C3 CW Q2) as [QK ->]. assert (k' = k) by lia. subst k'. apply app_inv_head in Q2.
          rewrite E2 in Q2. apply app_inj_len in Q2; [|lia]. destruct Q2 as [-> Q2]. apply (ND v2 d' _ (eq_sym Q2) C4).
      - intros [(t & v & c & EV & C & T)|(k' & v1 & y1 & d' & v2 & c & EV & C & K' & Y1 & C4 & _)]; rewrite E in EV.
        + destruct (codeword_unique _ _ _ _ _ _ _ CW C EV). lia.
        + destruct (codeword_unique _ _ _ _ _ _ _ CW C EV) as [QK <-]. assert (k' = k) by lia. subst k'. apply app_inv_head in EV.
          rewrite E2 in EV. apply app_inj_len in EV; [|lia]. destruct EV as [_ EV]. apply (ND v2 d' _ EV C4). }
  destruct (dist_tables d) as [T3 T4]. unfold bind at 1 in ER. destruct (Nat.ltb_spec d 30) as [D|D].
  2:{ rewrite (lookup_none _ _ _ T3) in ER. right. right. left. split; [|exact ER]. right. exists k, w, x, d, w2, b3.
      rewrite <- SK. split; [rewrite E, E2, E3; reflexivity|]. auto 10. }
  rewrite (lookup_some _ _ _ _ T3) in ER. unfold bind at 1 in ER.
  (* what the bits can be otherwise *)
  assert (NU : ~ undefined_symbol ll dl b).
  { intros [(t & v & c & EV & C & T)|(k' & v1 & y1 & d' & v2 & c & EV & C & K' & Y1 & C4 & D')]; rewrite E in EV.
    + destruct (codeword_unique _ _ _ _ _ _ _ CW C EV). lia.
    + destruct (codeword_unique _ _ _ _ _ _ _ CW C EV) as [QK <-]. assert (k' = k) by lia. subst k'. apply app_inv_head in EV.
      rewrite E2 in EV. apply app_inj_len in EV; [|lia]. destruct EV as [_ EV]. rewrite E3 in EV. destruct (codeword_unique _ _ _ _ _ _ _ CD C4 EV). lia. }
  assert (IT : forall o1 c, item ll dl o b o1 c -> exists y2, b3 = y2 ++ c /\ length y2 = distextra d /\ repeats o (distbase d + lsb y2) (lenbase k + lsb x) o1).
  { intros o1 c I. inversion I as [o_ v t c_ ? C3 Q1 Q2 Q3 Q4|o_ v1 k' y1 v2 d' y2 o'_ c_ C3 K2 Y1 C4 D2 Y2 R4 Q1 Q2 Q3 Q4]; subst o_.
    + rewrite E in Q2. destruct (codeword_unique _ _ _ _ _ _ _ C3 CW Q2). lia.
    + rewrite E in Q2. destruct (codeword_unique _ _ _ _ _ _ _ C3 CW Q2) as [QK ->]. assert (k' = k) by lia. subst k'. apply app_inv_head in Q2.
      rewrite E2 in Q2. apply app_inj_len in Q2; [|lia]. destruct Q2 as [-> Q2]. rewrite E3 in Q2. destruct (codeword_unique _ _ _ _ _ _ _ C4 CD Q2) as [-> ->].
      apply app_inv_head in Q2. exists y2. rewrite <- Q2, <- Q4. auto. }
  pose proof (distextra_le d D) as DX.
  destruct (bits_any old p (distextra d) st3 b3 o O3 ltac:(lia)) as [(y & b4 & st4 & LY & E4 & R4 & O4)|(LB & e & R4)]; rewrite R4 in ER.
  2:{ right. right. right. split; [eauto|]. split; [|split; [exact NEND|exact NU]]. intros o1 c I. destruct (IT o1 c I) as (y2 & Q & LY & _). rewrite Q, app_length in LB. lia. }
  unfold bind at 1 in ER. rewrite (lookup_some _ _ _ _ T4) in ER. unfold bind at 1, get in ER. cbv beta iota in ER.
  pose proof O4 as (s4 & _ & _ & _ & _ & _ & _ & WI). pose proof WI as (W1 & W2 & W3 & W4 & W5 & _). pose proof (distbase_pos d) as DP.
  destruct (Nat.ltb_spec (wlen st4) (distbase d + lsb y)) as [X|X].
  { right. right. right. split; [unfold fail in ER; eauto|]. split; [|split; [exact NEND|exact NU]]. intros o1 c I. destruct (IT o1 c I) as (y2 & Q & LY2 & (RP & _)).
    rewrite E4 in Q. apply app_inj_len in Q; [|lia]. destruct Q as [<- _]. lia. }
  left. unfold bind in ER. pose proof (dist_win d y D LY) as DW.
  destruct (copyback_spec old p (lenbase k + lsb x) st4 b4 o (distbase d + lsb y) O4 ltac:(lia) DW) as (st5 & E5 & O5).
  replace ((WinSz + wpos st4 - (distbase d + lsb y)) mod WinSz) with ((length o - (distbase d + lsb y)) mod WinSz) in ER.
  2:{ assert (WN : WinSz <> 0) by (rewrite WinSz_val; lia). clear - W4 W5 W2 WN DW X W3.
      pose proof (Nat.div_mod (length o) WinSz WN) as D1. pose proof (Nat.div_mod (wpos st4) WinSz WN) as D2. rewrite W5 in D2. set (dd := distbase d + lsb y) in *.
      assert (M : exists q, length o = wpos st4 + q * WinSz).
      { assert (wpos st4 / WinSz <= length o / WinSz) by (apply Nat.div_le_mono; lia). exists (length o / WinSz - wpos st4 / WinSz). nia. }
      destruct M as (q & M). rewrite M. destruct q as [|q].
      - rewrite Nat.add_0_r. replace (WinSz + wpos st4 - dd) with (wpos st4 - dd + 1 * WinSz) by lia. rewrite Nat.mod_add by exact WN. reflexivity.
      - replace (wpos st4 + S q * WinSz - dd) with (WinSz + wpos st4 - dd + q * WinSz) by lia. rewrite Nat.mod_add by exact WN. reflexivity. }
  rewrite E5 in ER. exists (again o (distbase d + lsb y) (lenbase k + lsb x)), b4, st5. split; [|auto].
  rewrite E, E2, E3, E4. apply (I_ref ll dl o w k x w2 d y); auto; [rewrite <- SK; exact CW|]. apply again_repeats. lia.
Qed.
End Codes.
End Block.
