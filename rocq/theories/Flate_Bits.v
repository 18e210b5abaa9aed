(* Reading bits and writing bytes in the model of flate. *)
From Verif Require Import Base ListX Utf_Model Bio_Model Bio_Spec Bio_Calls Bio_Proofs Bio_Reads Bio_Write Flate_Spec Flate_Model.
From Coq Require Import NArith Lia List.
Import ListNotations.
Open Scope nat_scope.

Lemma lsb_app x : forall y, lsb (x ++ y) = lsb x + 2 ^ length x * lsb y.
Proof. induction x as [|b x IH]; intros y; cbn [app lsb length]; [cbn; lia|]. rewrite IH. cbn [Nat.pow]. lia. Qed.
Lemma lsb_bound x : lsb x < 2 ^ length x.
Proof. induction x as [|b x IH]; cbn [lsb length]; [cbn; lia|]. cbn [Nat.pow]. destruct b; cbn [Nat.b2n]; lia. Qed.
Lemma lsb_inj x : forall y, length x = length y -> lsb x = lsb y -> x = y.
Proof.
  induction x as [|b x IH]; intros [|c y] L E; cbn [length] in L; try lia; auto. cbn [lsb] in E.
  assert (b = c) by (destruct b, c; cbn [Nat.b2n] in E; auto; lia). subst c. f_equal. apply IH; lia.
Qed.
Lemma lsb_firstn n x : n <= length x -> lsb x mod 2 ^ n = lsb (firstn n x).
Proof.
  intros L. rewrite <- (firstn_skipn n x) at 1. rewrite lsb_app, firstn_length, Nat.min_l by lia.
  rewrite Nat.mul_comm, Nat.mod_add by (apply Nat.pow_nonzero; lia). apply Nat.mod_small.
  pose proof (lsb_bound (firstn n x)) as B. rewrite firstn_length, Nat.min_l in B by lia. exact B.
Qed.
Lemma lsb_skipn n x : n <= length x -> lsb x / 2 ^ n = lsb (skipn n x).
Proof.
  intros L. rewrite <- (firstn_skipn n x) at 1. rewrite lsb_app, firstn_length, Nat.min_l by lia.
  rewrite Nat.mul_comm, Nat.div_add by (apply Nat.pow_nonzero; lia).
  pose proof (lsb_bound (firstn n x)) as B. rewrite firstn_length, Nat.min_l in B by lia. rewrite Nat.div_small by exact B. reflexivity.
Qed.
Lemma bits8_length b : length (bits_of_byte b) = 8.
Proof. reflexivity. Qed.
Lemma bits8_lsb b : (b < 256)%N -> N.of_nat (lsb (bits_of_byte b)) = b.
Proof.
  intros H. rewrite <- (N2Nat.id b) in *. generalize dependent (N.to_nat b). intros n H.
  assert (n < 256) by lia. clear H.
  assert (A : forallb (fun n => N.eqb (N.of_nat (lsb (bits_of_byte (N.of_nat n)))) (N.of_nat n)) (seq 0 256) = true) by (vm_compute; reflexivity).
  rewrite forallb_forall in A. apply N.eqb_eq, A, in_seq. lia.
Qed.
Lemma bitstream_length s : length (bitstream s) = 8 * length s.
Proof. induction s as [|b s IH]; [reflexivity|]. unfold bitstream in *. cbn [map concat length]. rewrite app_length, IH, bits8_length. lia. Qed.
Lemma bitstream_cons b s : bitstream (b :: s) = bits_of_byte b ++ bitstream s.
Proof. reflexivity. Qed.
Lemma bitstream_app s t : bitstream (s ++ t) = bitstream s ++ bitstream t.
Proof. unfold bitstream. rewrite map_app, concat_app. reflexivity. Qed.
Global Opaque bits_of_byte WinSz.
Arguments bitstream : simpl never.
Lemma WinSz_val : WinSz = N.to_nat 32768. Proof. reflexivity. Qed.

Section Dec.
Variables (old : list N) (p : nat).

Definition window (wp wl : nat) (w : list N) (o : list N) : Prop :=
  length w = WinSz /\ wl = length o /\ wp <= WinSz /\ wp <= wl /\ wp mod WinSz = length o mod WinSz /\
  forall k, k < length o -> length o <= k + WinSz -> nth_error w (k mod WinSz) = nth_error o k.
(* the bits b are still to be read and the bytes o have been written *)
Definition ok (st : dec) (b : list bool) (o : list N) : Prop :=
  exists s, reader (rdf st) s /\ b = skipn (bpos st) (bits_of_byte (bval st)) ++ bitstream s /\ (bval st < 256)%N /\ 1 <= bpos st <= 8 /\
    writer (wrf st) old p o /\ quiet (dv (wrf st)) /\ window (wpos st) (wlen st) (win st) o.

Lemma getb_reader f s : reader f s ->
  match s with
  | [] => exists f', getb f = Done (f', Err Eof)
  | b :: s' => exists f', getb f = Done (f', Ok b) /\ reader f' s'
  end.
Proof.
  intros R. destruct s as [|b s'].
  - destruct (call_reads f [] OGetb AEof [] R I R_getb_eof) as (f' & E & _). cbn [call] in E. unfold lift in E.
    destruct (getb f) as [[g r]| |]; try discriminate. injection E as -> E. destruct r as [a|[]]; cbn in E; try discriminate; eauto.
  - destruct (call_reads f (b :: s') OGetb (AByte b) s' R I (R_getb b s')) as (f' & E & R' & _). cbn [call] in E. unfold lift in E.
    destruct (getb f) as [[g r]| |]; try discriminate. injection E as -> E. destruct r as [a|[]]; cbn in E; try discriminate. injection E as ->. eauto.
Qed.
Lemma putb_writer f o b : writer f old p o -> quiet (dv f) -> exists f' n, putb f b = Done (f', Ok (S n)) /\ writer f' old p (o ++ [b]) /\ quiet (dv f').
Proof.
  intros W Q. destruct (put_quiet f old p o (OPutb b) W I Q) as (f' & E & _ & W' & Q'). cbn [put bytes_of] in *. unfold okr in E.
  destruct (putb f b) as [[g [n|]]| |] eqn:EP; try discriminate. injection E as ->. exists f'. unfold putb in EP. destruct (negb (wr f)); [discriminate|].
  destruct (ensurewrite f 1) as [[h [|]]| |]; try discriminate. injection EP as _ <-. exists 0. unfold putb. auto.
Qed.

Lemma outb_spec st b o x : ok st b o -> exists st', outb x st = FOk tt st' /\ ok st' b (o ++ [x]) /\ rdf st' = rdf st /\ bval st' = bval st /\ bpos st' = bpos st.
Proof.
  intros (s & R & E & BV & BP & W & Q & (L & WL & WP & WPL & M & A)). destruct (putb_writer _ _ x W Q) as (f & n & EP & W' & Q').
  pose proof WinSz_val as WV. assert (WN : WinSz <> 0) by lia.
  set (pos := if wpos st =? WinSz then 0 else wpos st). assert (HP : pos = length o mod WinSz).
  { unfold pos. destruct (Nat.eqb_spec (wpos st) WinSz) as [X|X]; [rewrite <- M, X, Nat.mod_same by lia; reflexivity|]. rewrite <- M, Nat.mod_small by lia. reflexivity. }
  pose proof (Nat.mod_upper_bound (length o) WinSz WN) as PB.
  exists (mkdec (rdf st) f (bval st) (bpos st) (pos + 1) (wlen st + 1) (upd (win st) pos x)). unfold outb. rewrite EP. fold pos.
  assert (A1 : (wpos st =? WinSz) && (wlen st <? WinSz) = false).
  { destruct (Nat.eqb_spec (wpos st) WinSz); [|reflexivity]. cbn. apply Nat.ltb_ge. lia. }
  rewrite A1. assert (A2 : pos <? length (win st) = true) by (apply Nat.ltb_lt; lia). rewrite A2.
  split; [reflexivity|]. split; [|cbn; auto]. exists s. cbn. do 6 (split; [assumption|]).
  unfold window. rewrite upd_length, app_length. cbn [length]. split; [exact L|]. split; [lia|]. split; [lia|].
  assert (length o mod WinSz <= length o) by (apply Nat.mod_le; exact WN). split; [lia|].
  split. { rewrite HP. rewrite Nat.add_mod_idemp_l by exact WN. reflexivity. }
  intros k K1 K2. rewrite nth_error_upd. destruct (Nat.eqb_spec pos (k mod WinSz)) as [X|X].
  - destruct (Nat.ltb_spec pos (length (win st))); [|lia].
    destruct (Nat.eq_dec k (length o)) as [->|NK]; [rewrite nth_error_app2, Nat.sub_diag by lia; reflexivity|exfalso].
    rewrite HP in X. pose proof (Nat.div_mod (length o) WinSz WN) as D1. pose proof (Nat.div_mod k WinSz WN) as D2.
    rewrite X in D1. assert (DD : length o - k = WinSz * (length o / WinSz - k / WinSz)) by nia.
    destruct (length o / WinSz - k / WinSz) as [|q]; nia.
  - destruct (Nat.eq_dec k (length o)) as [->|NK]; [congruence|]. rewrite nth_error_app1 by lia. apply A; lia.
Qed.

(* reading bits *)
Lemma bits_loop_spec fuel : forall st n T s v, reader (rdf st) s -> v = N.of_nat (lsb T) -> n <= length T + 8 * fuel -> (bval st < 256)%N ->
  (length T < n + 8) -> (forall m, m <= 8 -> m <= length T -> skipn (length T - m) T = skipn (8 - m) (bits_of_byte (bval st))) ->
  (exists T' s' f bv, bits_loop (S fuel) n (length T) v st = FOk (N.of_nat (lsb T'), length T') (mkdec f (wrf st) bv (bpos st) (wpos st) (wlen st) (win st)) /\
     reader f s' /\ (bv < 256)%N /\ T ++ bitstream s = T' ++ bitstream s' /\ n <= length T' < n + 8 /\
     forall m, m <= 8 -> m <= length T' -> skipn (length T' - m) T' = skipn (8 - m) (bits_of_byte bv)) \/
  (length T + length (bitstream s) < n /\ exists e, bits_loop (S fuel) n (length T) v st = FErr e).
Proof.
  induction fuel as [|fuel IH]; intros st n T s v R V F BV NL TL; cbn [bits_loop].
  - destruct (Nat.ltb_spec (length T) n) as [X|X]; [lia|]. left. exists T, s, (rdf st), (bval st). subst v. destruct st. split; [reflexivity|]. split; [exact R|]. split; [exact BV|]. split; [reflexivity|]. split; [lia|exact TL].
  - destruct (Nat.ltb_spec (length T) n) as [X|X].
    + unfold bind, nextb. pose proof (getb_reader _ _ R) as G. destruct s as [|b s].
      * destruct G as (f' & G). rewrite G. right. rewrite bitstream_length. cbn [length]. split; [lia|eauto].
      * destruct G as (f' & G & R'). rewrite G. unfold setbval.
        assert (BB : (b < 256)%N). { destruct R as (_ & _ & _ & _ & _ & RB). inversion RB; subst. assumption. }
        set (st1 := mkdec f' (wrf st) b (bpos st) (wpos st) (wlen st) (win st)).
        assert (LT : length T + 8 = length (T ++ bits_of_byte b)) by (rewrite app_length; reflexivity).
        destruct (IH st1 n (T ++ bits_of_byte b) s (v + N.shiftl b (N.of_nat (length T)))%N) as [(T' & s' & f & bv & A1 & A2)|(A1 & e & A2)]; auto.
        { rewrite lsb_app, N.shiftl_mul_pow2. subst v. rewrite <- (bits8_lsb b BB) at 1. rewrite Nat2N.inj_add, Nat2N.inj_mul, Nat2N.inj_pow.
          change (N.of_nat 2) with 2%N. lia. }
        { rewrite <- LT. lia. } { rewrite <- LT. lia. }
        { intros m M1 M2. cbn [st1 bval]. rewrite app_length. change (length (bits_of_byte b)) with 8. rewrite skipn_app, skipn_all2 by lia. cbn [app]. f_equal. lia. }
        { left. exists T', s', f, bv. rewrite LT. cbn in A1 |- *. split; [exact A1|]. rewrite bitstream_cons, app_assoc. exact A2. }
        { right. rewrite LT. cbn in A2 |- *. split; [|eauto]. rewrite bitstream_cons, app_length. rewrite <- LT in A1. change (length (bits_of_byte b)) with 8. lia. }
    + left. exists T, s, (rdf st), (bval st). subst v. destruct st. split; [reflexivity|]. split; [exact R|]. split; [exact BV|]. split; [reflexivity|]. split; [lia|exact TL].
Qed.
Lemma land_ones n T : n <= length T -> N.to_nat (N.land (N.of_nat (lsb T)) (N.ones (N.of_nat n))) = lsb (firstn n T).
Proof.
  intros L. rewrite N.land_ones, <- lsb_firstn by exact L. change 2%N with (N.of_nat 2). rewrite <- Nat2N.inj_pow, <- Nat2N.inj_mod. apply Nat2N.id.
Qed.
Lemma bits_spec n st b o : ok st b o -> 1 <= n <= 31 ->
  (exists x b' st', length x = n /\ b = x ++ b' /\ bits n st = FOk (lsb x) st' /\ ok st' b' o) \/
  (length b < n /\ exists e, bits n st = FErr e).
Proof.
  intros (s & R & E & BV & BP & W & Q & WI) N31. unfold bits. destruct (Nat.ltb_spec 31 n); [lia|]. unfold bind at 1, get. unfold bind at 1.
  set (T := skipn (bpos st) (bits_of_byte (bval st))). assert (LT : length T = 8 - bpos st) by (unfold T; rewrite skipn_length; reflexivity).
  destruct (bits_loop_spec 4 st n T s (N.shiftr (bval st) (N.of_nat (bpos st)))) as [(T' & s' & f & bv & A1 & A2 & A3 & A4 & A5 & A6)|(A1 & e & A2)]; auto; try lia.
  - unfold T. rewrite <- lsb_skipn by (change (length (bits_of_byte (bval st))) with 8; lia). rewrite N.shiftr_div_pow2. rewrite <- (bits8_lsb (bval st) BV) at 1.
    change 2%N with (N.of_nat 2). rewrite <- Nat2N.inj_pow, <- Nat2N.inj_div. reflexivity.
  - intros m M1 M2. unfold T. rewrite skipn_skipn, skipn_length. f_equal. change (length (bits_of_byte (bval st))) with 8 in *. lia.
  - rewrite LT in A1. rewrite A1. unfold bind, setbpos, ret. cbn [fst snd rdf wrf bval bpos wpos wlen win]. left. exists (firstn n T'), (skipn n T' ++ bitstream s').
    eexists. split; [rewrite firstn_length; lia|]. split; [rewrite app_assoc, firstn_skipn, <- A4; exact E|]. rewrite land_ones by lia.
    split; [reflexivity|]. exists s'. cbn [rdf wrf bval bpos wpos wlen win]. split; [exact A2|]. split.
    { f_equal. replace n with (length T' - (length T' - n)) at 1 by lia. apply A6; lia. }
    split; [exact A3|]. split; [lia|]. split; [exact W|]. split; [exact Q|exact WI].
  - rewrite LT in A2. right. split; [rewrite E, app_length; fold T; lia|]. exists e. unfold bind, get. rewrite A2. reflexivity.
Qed.
Lemma bits0_spec st b o : ok st b o -> exists st', bits 0 st = FOk 0 st' /\ ok st' b o.
Proof.
  intros (s & R & E & BV & BP & W & Q & WI). unfold bits. change (31 <? 0) with false. cbn [bits_loop]. unfold bind, get, ret, setbpos.
  change (8 - bpos st <? 0) with false. cbn [fst snd rdf wrf bval bpos wpos wlen win]. change (N.ones (N.of_nat 0)) with 0%N. rewrite N.land_0_r.
  eexists. split; [reflexivity|]. exists s. cbn [rdf wrf bval bpos wpos wlen win]. replace (8 - (8 - bpos st - 0)) with (bpos st) by lia. auto 10.
Qed.
(* any number of bits up to 31 *)
Lemma bits_any n st b o : ok st b o -> n <= 31 ->
  (exists x b' st', length x = n /\ b = x ++ b' /\ bits n st = FOk (lsb x) st' /\ ok st' b' o) \/
  (length b < n /\ exists e, bits n st = FErr e).
Proof.
  intros O N31. destruct n as [|n]; [|apply bits_spec; auto; lia]. left. destruct (bits0_spec st b o O) as (st' & E & O'). exists [], b, st'. auto.
Qed.

(* copying input bytes *)
Lemma copyin_spec n : forall st s o, reader (rdf st) s -> ok st (bitstream s) o -> bpos st = 8 ->
  (exists st', n <= length s /\ copyin n st = FOk tt st' /\ ok st' (bitstream (skipn n s)) (o ++ firstn n s)) \/ (length s < n /\ exists e, copyin n st = FErr e).
Proof.
  induction n as [|n IH]; intros st s o R O B8; cbn [copyin].
  - left. exists st. cbn. rewrite app_nil_r. split; [lia|]. auto.
  - unfold bind, nextb. pose proof (getb_reader _ _ R) as G. destruct s as [|b s].
    + right. destruct G as (f' & ->). cbn. split; [lia|eauto].
    + destruct G as (f' & G & R'). rewrite G.
      destruct (outb_spec (mkdec f' (wrf st) (bval st) (bpos st) (wpos st) (wlen st) (win st)) (bitstream s) o b) as (st1 & E1 & O1 & R1 & BV1 & BP1).
      { destruct O as (s0 & _ & _ & BV & BP & W & Q & WI). exists s. cbn. split; [exact R'|]. rewrite B8. rewrite skipn_all2 by (change (length (bits_of_byte (bval st))) with 8; lia).
        split; [reflexivity|]. split; [exact BV|]. split; [lia|]. auto. }
      rewrite E1. cbn in R1, BP1. destruct (IH st1 s (o ++ [b])) as [(st' & L & E & O')|(L & e & E)]; auto.
      { rewrite R1. exact R'. } { congruence. }
      * left. exists st'. rewrite E. cbn. split; [lia|]. split; [reflexivity|]. rewrite <- app_assoc in O'. exact O'.
      * right. rewrite E. cbn. split; [lia|eauto].
Qed.

(* repeating earlier output *)
Fixpoint again (o : list N) (dist len : nat) : list N :=
  match len with O => o | S len => again (o ++ [nth (length o - dist) o 0%N]) dist len end.
Lemma copyback_spec len : forall st b o dist, ok st b o -> 1 <= dist <= length o -> dist <= WinSz ->
  exists st', copyback len ((length o - dist) mod WinSz) st = FOk tt st' /\ ok st' b (again o dist len).
Proof.
  induction len as [|len IH]; intros st b o dist O D DW; cbn [copyback again]; [exists st; auto|].
  unfold bind at 1, winat. assert (A : nth_error (win st) ((length o - dist) mod WinSz) = Some (nth (length o - dist) o 0%N)).
  { destruct O as (s & _ & _ & _ & _ & _ & _ & (L & WL & WP & WPL & M & A)). rewrite A by lia. apply nth_error_nth'. lia. }
  rewrite A. unfold bind. destruct (outb_spec st b o (nth (length o - dist) o 0%N) O) as (st1 & E1 & O1 & _). rewrite E1.
  assert (L1 : length (o ++ [nth (length o - dist) o 0%N]) = length o + 1) by (rewrite app_length; reflexivity).
  destruct (IH st1 b _ dist O1) as (st' & E & O'); [lia|exact DW|]. exists st'. split; [|exact O'].
  rewrite Nat.add_mod_idemp_l by (rewrite WinSz_val; lia). replace (length o - dist + 1) with (length (o ++ [nth (length o - dist) o 0%N]) - dist) by lia. exact E.
Qed.
End Dec.

Lemma nth_error_first {A} (l : list A) n k : k < n -> nth_error (firstn n l) k = nth_error l k.
Proof. revert n k. induction l as [|x l IH]; intros [|n] [|k] H; cbn; try lia; auto. apply IH. lia. Qed.
Lemma again_repeats len : forall o dist, 1 <= dist <= length o -> repeats o dist len (again o dist len).
Proof.
  induction len as [|len IH]; intros o dist D; cbn [again].
  - unfold repeats. rewrite firstn_all. repeat split; try lia.
  - set (x := nth (length o - dist) o 0%N). assert (L1 : length (o ++ [x]) = length o + 1) by (rewrite app_length; reflexivity).
    destruct (IH (o ++ [x]) dist) as (R1 & R2 & R3 & R4); [lia|]. unfold repeats. split; [lia|]. split; [lia|].
    assert (F1 : firstn (length o) (again (o ++ [x]) dist len) = o).
    { transitivity (firstn (length o) (firstn (length (o ++ [x])) (again (o ++ [x]) dist len))); [rewrite firstn_firstn, L1, Nat.min_l by lia; reflexivity|].
      rewrite R3, firstn_app, Nat.sub_diag, firstn_all. apply app_nil_r. }
    split; [exact F1|]. intros [|i] I.
    + assert (FX : forall k, k < length o + 1 -> nth_error (again (o ++ [x]) dist len) k = nth_error (o ++ [x]) k).
      { intros k K. rewrite <- R3 at 2. rewrite nth_error_first by lia. reflexivity. }
      rewrite !FX by lia. rewrite Nat.add_0_r, nth_error_app2, Nat.sub_diag by lia. rewrite nth_error_app1 by lia. cbn. symmetry. apply nth_error_nth'. lia.
    + rewrite L1 in R4. specialize (R4 i ltac:(lia)). replace (length o + S i) with (length o + 1 + i) by lia. exact R4.
Qed.
Lemma repeats_unique o dist len x y : repeats o dist len x -> repeats o dist len y -> x = y.
Proof.
  intros (D & X1 & X2 & X3) (_ & Y1 & Y2 & Y3). apply nth_error_ext. intros i. induction i as [i IH] using lt_wf_ind.
  destruct (lt_dec i (length o)) as [L|L].
  - assert (FX : nth_error x i = nth_error o i) by (rewrite <- X2 at 1; rewrite nth_error_first by lia; reflexivity).
    assert (FY : nth_error y i = nth_error o i) by (rewrite <- Y2 at 1; rewrite nth_error_first by lia; reflexivity). congruence.
  - destruct (lt_dec i (length o + len)) as [L2|L2].
    + specialize (X3 (i - length o) ltac:(lia)). specialize (Y3 (i - length o) ltac:(lia)).
      replace (length o + (i - length o)) with i in X3, Y3 by lia. rewrite X3, Y3. apply IH. lia.
    + rewrite (proj2 (nth_error_None x i)), (proj2 (nth_error_None y i)) by lia. reflexivity.
Qed.
