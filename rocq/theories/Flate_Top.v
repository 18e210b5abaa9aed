(* Dynamic blocks and whole streams. *)
From Verif Require Import Base ListX Utf_Model Bio_Model Bio_Spec Bio_Calls Bio_Proofs Bio_Reads Bio_Write Flate_Spec Flate_Model Flate_Bits Flate_Huff Flate_Block Flate_Dyn.
From Coq Require Import NArith Lia List.
Import ListNotations.
Open Scope nat_scope.

Fixpoint setall (places vals : list nat) (l : list nat) : list nat :=
  match places, vals with c :: places, v :: vals => setall places vals (upd l c v) | _, _ => l end.
Lemma setall_length places : forall vals l, length (setall places vals l) = length l.
Proof. induction places as [|c places IH]; intros [|v vals] l; cbn; auto. rewrite IH. apply upd_length. Qed.
Lemma setall_other places : forall vals l j, ~ In j places -> nth j (setall places vals l) 0 = nth j l 0.
Proof.
  induction places as [|c places IH]; intros [|v vals] l j N; cbn; auto. cbn in N. rewrite IH by tauto. apply nth_upd_other. intros ->. tauto.
Qed.
Lemma setall_nth places : forall vals l i, NoDup places -> Forall (fun c => c < length l) places -> length vals = length places -> i < length places ->
  nth (nth i places 0) (setall places vals l) 0 = nth i vals 0.
Proof.
  induction places as [|c places IH]; intros [|v vals] l i ND F L I; cbn in L, I; try lia. inversion ND; subst. inversion F; subst. destruct i as [|i]; cbn [setall nth].
  - rewrite setall_other by assumption. apply nth_upd_same. assumption.
  - apply IH; auto; try lia. rewrite upd_length. assumption.
Qed.
Lemma order_nodup : NoDup order.
Proof. unfold order. repeat (constructor; [cbn; intuition discriminate|]). constructor. Qed.
Lemma order_lt : Forall (fun c => c < 19) order.
Proof. unfold order. repeat (constructor; [lia|]). constructor. Qed.
Lemma order_all j : j < 19 -> exists i, i < 19 /\ nth i order 0 = j.
Proof. intros L. do 19 (destruct j as [|j]; [first [exists 3; split; [lia|reflexivity] | exists 17; split; [lia|reflexivity] | exists 15; split; [lia|reflexivity] | exists 13; split; [lia|reflexivity] | exists 11; split; [lia|reflexivity] | exists 9; split; [lia|reflexivity] | exists 7; split; [lia|reflexivity] | exists 5; split; [lia|reflexivity] | exists 4; split; [lia|reflexivity] | exists 6; split; [lia|reflexivity] | exists 8; split; [lia|reflexivity] | exists 10; split; [lia|reflexivity] | exists 12; split; [lia|reflexivity] | exists 14; split; [lia|reflexivity] | exists 16; split; [lia|reflexivity] | exists 18; split; [lia|reflexivity] | exists 0; split; [lia|reflexivity] | exists 1; split; [lia|reflexivity] | exists 2; split; [lia|reflexivity]]|]). lia. Qed.
Lemma headlens_setall xs : length xs <= 19 -> headlens xs (setall (firstn (length xs) order) (map lsb xs) (repeat 0 19)).
Proof.
  intros L. split; [rewrite setall_length; apply repeat_length|]. intros i I. assert (LF : length (firstn (length xs) order) = length xs) by (rewrite firstn_length; cbn [order length]; lia).
  destruct (lt_dec i (length xs)) as [X|X].
  - assert (E : nth i order 0 = nth i (firstn (length xs) order) 0).
    { rewrite <- (firstn_skipn (length xs) order) at 1. rewrite app_nth1 by lia. reflexivity. }
    rewrite E, setall_nth.
    + change 0 with (lsb []). apply map_nth.
    + pose proof order_nodup as ND. rewrite <- (firstn_skipn (length xs) order) in ND.
      clear - ND. revert ND. generalize (firstn (length xs) order) (skipn (length xs) order). intros a c. induction a as [|x a IH]; intros ND; [constructor|]. cbn in ND. inversion ND; subst.
      constructor; [intros H; apply H1, in_or_app; auto|auto].
    + rewrite repeat_length. pose proof order_lt as OL. rewrite <- (firstn_skipn (length xs) order) in OL. apply Forall_app in OL. apply OL.
    + rewrite map_length. lia.
    + lia.
  - rewrite (nth_overflow xs) by lia. cbn [lsb]. rewrite setall_other; [apply nth_repeat|]. intros H.
    pose proof order_nodup as ND. rewrite <- (firstn_skipn (length xs) order) in ND.
    assert (H2 : In (nth i order 0) (skipn (length xs) order)).
    { rewrite <- (firstn_skipn (length xs) order) at 1. rewrite app_nth2 by lia. apply nth_In. rewrite skipn_length. cbn [order length]. lia. }
    revert ND H H2. generalize (firstn (length xs) order) (skipn (length xs) order) (nth i order 0). intros a c x. clear. induction a as [|y a IH]; intros ND H H2; [destruct H|].
    cbn in ND. inversion ND; subst. destruct H as [->|H]; [apply H3, in_or_app; auto|auto].
Qed.
Lemma headlens_unique xs c1 c2 : headlens xs c1 -> headlens xs c2 -> c1 = c2.
Proof.
  intros (L1 & A1) (L2 & A2). apply (nth_ext _ _ 0 0); [congruence|]. intros j J. rewrite L1 in J. destruct (order_all j J) as (i & I & <-). rewrite A1, A2 by exact I. reflexivity.
Qed.
Lemma lsb_3 x : length x = 3 -> lsb x <= 7.
Proof. intros L. pose proof (lsb_bound x) as B. rewrite L in B. cbn in B. lia. Qed.
Lemma setall_15 places : forall vals l, Forall (fun l => l <= 15) vals -> Forall (fun l => l <= 15) l -> Forall (fun l => l <= 15) (setall places vals l).
Proof.
  induction places as [|c places IH]; intros [|v vals] l FV FL; cbn; auto. inversion FV; subst. apply IH; auto.
  apply Forall_forall. intros x X. apply In_nth_error in X. destruct X as (i & X). rewrite nth_error_upd in X. destruct ((c =? i) && (c <? length l)).
  - injection X as <-. assumption.
  - rewrite Forall_forall in FL. apply FL. apply (nth_error_In _ _ X).
Qed.
Lemma concat3_inj xs : forall ys b c, length xs = length ys -> Forall (fun x : list bool => length x = 3) xs -> Forall (fun x => length x = 3) ys ->
  concat xs ++ b = concat ys ++ c -> xs = ys /\ b = c.
Proof.
  induction xs as [|x xs IH]; intros [|y ys] b c L FX FY E; cbn in L; try lia; [auto|]. inversion FX; subst. inversion FY; subst. cbn [concat] in E. rewrite <- !app_assoc in E.
  apply app_inj_len in E; [|lia]. destruct E as [-> E]. destruct (IH ys b c) as [-> ->]; auto.
Qed.
Lemma lengths_unique cl total acc b r1 b1 : lengths cl total acc b r1 b1 -> forall r2 b2, lengths cl total acc b r2 b2 -> r1 = r2 /\ b1 = b2.
Proof.
  assert (A1 : forall {T} (l : list T) x, length (l ++ [x]) = S (length l)) by (intros; rewrite app_length; cbn; lia).
  induction 1 as [acc b L|acc w s b r b' L S C H IH|acc q w x b r b' C X L H IH|acc w x b r b' C X L H IH|acc w x b r b' C X L H IH]; intros r2 b2 H2;
    inversion H2 as [a_ b_ B1 B2 B3 B4 B5|a_ v_ s_ b_ r_ b'_ B1 B2 B3 B4 B5 B6 B7 B8|a_ q_ v_ x_ b_ r_ b'_ B1 B2 B3 B4 B5 B6 B7 B8|a_ v_ x_ b_ r_ b'_ B1 B2 B3 B4 B5 B6 B7 B8|a_ v_ x_ b_ r_ b'_ B1 B2 B3 B4 B5 B6 B7 B8];
    try (subst; auto; lia); try (exfalso; rewrite ?B5 in *; subst; lia);
    try (match goal with CA : codeword cl ?s1 ?v, CB : codeword cl ?s2 ?u, EQ : ?u ++ _ = ?v ++ _ |- _ => destruct (codeword_unique _ _ _ _ _ _ _ CB CA EQ) as [ES EW]; try (exfalso; lia) end).
  - subst v_. apply app_inv_head in B6. subst. auto.
  - apply app_inj_tail in B5. destruct B5 as [-> ->]. subst v_. apply app_inv_head in B6. apply app_inj_len in B6; [|lia]. destruct B6 as [-> ->]. auto.
  - subst v_. apply app_inv_head in B6. apply app_inj_len in B6; [|lia]. destruct B6 as [-> ->]. auto.
  - subst v_. apply app_inv_head in B6. apply app_inj_len in B6; [|lia]. destruct B6 as [-> ->]. auto.
Qed.
Lemma header_unique b ll dl b1 ll2 dl2 b2 : header b ll dl b1 -> header b ll2 dl2 b2 -> ll = ll2 /\ dl = dl2 /\ b1 = b2.
Proof.
  intros (h1 & h2 & h3 & xs & cl & all & c1 & A1 & A2 & A3 & A4 & A5 & A6 & A7 & A8 & A9 & A10 & A11 & A12 & A13)
         (g1 & g2 & g3 & ys & cl' & all' & c2 & B1 & B2 & B3 & B4 & B5 & B6 & B7 & B8 & B9 & B10 & B11 & B12 & B13).
  rewrite A6 in B6. apply app_inj_len in B6; [|lia]. destruct B6 as [<- B6]. apply app_inj_len in B6; [|lia]. destruct B6 as [<- B6].
  apply app_inj_len in B6; [|lia]. destruct B6 as [<- B6]. apply concat3_inj in B6; auto; [|lia]. destruct B6 as [<- <-].
  rewrite (headlens_unique _ _ _ B9 A9) in B10. destruct (lengths_unique _ _ _ _ _ _ A10 _ _ B10) as [<- <-]. subst. auto.
Qed.
Lemma lengths_len cl total acc b r b' : lengths cl total acc b r b' -> length b' <= length b /\ length r = total.
Proof. induction 1; rewrite ?app_length in *; lia. Qed.
Lemma header_len b ll dl b1 : header b ll dl b1 -> length b1 <= length b.
Proof.
  intros (h1 & h2 & h3 & xs & cl & all & c1 & A1 & A2 & A3 & A4 & A5 & A6 & A7 & A8 & A9 & A10 & _). apply lengths_len in A10. subst b. rewrite !app_length. lia.
Qed.
Lemma block_unique o b o1 b1 o2 b2 : block o b o1 b1 -> block o b o2 b2 -> o1 = o2 /\ b1 = b2.
Proof.
  intros H1 H2. inversion H1 as [o_ b_ n c s b'_ E L EC F LS X1 X2 X3 X4|o_ b_ o'_ b'_ C X1 X2 X3 X4|o_ b_ ll dl b1_ o'_ b'_ HD C X1 X2 X3 X4]; subst o_ b;
    inversion H2 as [p_ c_ n' c' s' c'_ E' L' EC' F' LS' Y1 Y2 Y3 Y4|p_ c_ p'_ c'_ C' Y1 Y2 Y3 Y4|p_ c_ ll' dl' c1_ p'_ c'_ HD' C' Y1 Y2 Y3 Y4]; try discriminate.
  - subst. rewrite E in E'. apply app_inj_len in E'; [|lia]. destruct E' as [<- E']. apply app_inv_head in E'.
    assert (LL : length (bitstream s) = length (bitstream s')) by (rewrite !bitstream_length; lia). apply app_inj_len in E'; [|exact LL]. destruct E' as [E' <-].
    split; [|reflexivity]. f_equal. rewrite <- (app_nil_r (bitstream s')) in E'. destruct (bitstream_prefix s' s [] F' F E') as [-> _]. rewrite firstn_all2 by lia. reflexivity.
  - subst. apply (compressed_unique _ _ _ _ _ _ _ _ C C').
  - subst. destruct (header_unique _ _ _ _ _ _ _ HD HD') as (<- & <- & <-). apply (compressed_unique _ _ _ _ _ _ _ _ C C').
Qed.
Lemma block_len o b o1 b1 : block o b o1 b1 -> length b1 <= length b.
Proof.
  destruct 1 as [o b n c s b' E L EC F LS|o b o' b' C|o b ll dl b1 o' b' H C]; cbn [length].
  - apply (f_equal (@length _)) in E. rewrite skipn_length, !app_length in E. lia.
  - apply compressed_len in C. lia.
  - apply compressed_len in C. apply header_len in H. lia.
Qed.
Lemma inflates_unique b o1 b1 o2 b2 : inflates b o1 b1 -> inflates b o2 b2 -> o1 = o2 /\ b1 = b2.
Proof.
  assert (A : forall o b q1 c1, blocks o b q1 c1 -> forall c1' q2 c2', c1 = true :: c1' -> blocks o b q2 (true :: c2') -> q1 = q2 /\ c1' = c2').
  { induction 1 as [o c|o c q c' q1 c1 B H IH]; intros c1' q2 c2' E H2; inversion H2; subst; try discriminate; try congruence.
    - split; congruence.
    - match goal with X : block o c _ _ |- _ => destruct (block_unique _ _ _ _ _ _ B X); subst end. eauto. }
  intros (q1 & c1 & H1 & B1) (q2 & c2 & H2 & B2). destruct (A _ _ _ _ H1 _ _ _ eq_refl H2) as [<- <-]. apply (block_unique _ _ _ _ _ _ B1 B2).
Qed.

Lemma inflates_defined b o1 b1 : inflates b o1 b1 -> ~ undefined_in_fixed b.
Proof.
  assert (A : forall o b q1 c1, blocks o b q1 c1 -> forall c1' o' b', c1 = true :: c1' -> block q1 c1' o' b' ->
    forall q2 fi c2 o2 b2, blocks o b q2 (fi :: true :: false :: c2) -> items fixed_ll fixed_dl q2 c2 o2 b2 -> ~ undefined_symbol fixed_ll fixed_dl b2).
  { induction 1 as [o c|o c q c' q1 c1 B H IH]; intros c1' o' b' E HB q2 fi c2 o2 b2 H2 I; subst.
    - inversion H2; subst. inversion HB; subst. eapply compressed_undef; eauto.
    - inversion H2; subst.
      + inversion B; subst. eapply compressed_undef; eauto.
      + match goal with X : block o c _ _ |- _ => destruct (block_unique _ _ _ _ _ _ B X); subst end. eauto. }
  intros (q1 & c1 & H1 & B1) (q2 & c2 & fi & o2 & b2 & H2 & I & U). apply (A _ _ _ _ H1 _ _ _ eq_refl B1 _ _ _ _ _ H2 I U).
Qed.
Lemma decomp_eq lh dh st : decomp lh dh st = decomp_loop (enough st) lh dh st.
Proof. reflexivity. Qed.
Global Opaque enough decomp.
Section Dec.
Variables (old : list N) (p : nat).

Lemma headloop_spec places : forall st b o l, ok old p st b o ->
  (exists xs b' st', length xs = length places /\ Forall (fun x => length x = 3) xs /\ b = concat xs ++ b' /\
     headloop places l st = FOk (setall places (map lsb xs) l) st' /\ ok old p st' b' o) \/
  ((exists e, headloop places l st = FErr e) /\ length b < 3 * length places).
Proof.
  induction places as [|c places IH]; intros st b o l O; cbn [headloop].
  - left. exists [], b, st. cbn. auto 10.
  - unfold bind. destruct (bits_spec old p 3 st b o O ltac:(lia)) as [(x & b1 & st1 & LX & E & R & O1)|(LB & e & R)]; rewrite R.
    + destruct (IH st1 b1 o (upd l c (lsb x)) O1) as [(xs & b' & st' & A1 & A2 & A3 & A4 & A5)|(A & L)].
      * left. exists (x :: xs), b', st'. cbn [length concat map setall]. split; [lia|]. split; [constructor; auto|]. split; [rewrite E, A3, app_assoc; reflexivity|]. auto.
      * right. split; [exact A|]. rewrite E, app_length. cbn [length]. lia.
    + right. split; [eauto|]. cbn [length]. lia.
Qed.
Lemma lsb_len n x : length x = n -> lsb x < 2 ^ n.
Proof. intros <-. apply lsb_bound. Qed.
Lemma concat3_len xs : Forall (fun x : list bool => length x = 3) xs -> length (concat xs) = 3 * length xs.
Proof. induction 1; cbn [concat length]; [reflexivity|]. rewrite app_length. lia. Qed.

Definition dynblock (o : list N) (b : list bool) (o' : list N) (b' : list bool) : Prop := block o (false :: true :: b) o' b'.
Lemma short_undef ll dl b : length ll <= 286 -> length dl <= 30 -> ~ undefined_symbol ll dl b.
Proof.
  intros L D [(s & w & b' & _ & C & S)|(k & w1 & x1 & d & w2 & b' & _ & _ & _ & _ & C & S)]; apply codeword_lt in C; lia.
Qed.
Lemma dynamic_spec st b o : ok old p st b o ->
  (exists o' b' st', dynblock o b o' b' /\ dynamic st = FOk tt st' /\ ok old p st' b' o') \/
  ((exists e, dynamic st = FErr e) /\ forall o' b', ~ dynblock o b o' b').
Proof.
  intros O. remember (dynamic st) as r eqn:ER. unfold dynamic in ER.
  assert (INV : forall o' b', dynblock o b o' b' -> exists ll dl b1, header b ll dl b1 /\ compressed ll dl o b1 o' b').
  { intros o' b' H. inversion H; subst. eauto. }
  unfold bind at 1 in ER. destruct (bits_spec old p 5 st b o O ltac:(lia)) as [(h1 & b1 & st1 & L1 & E1 & R1 & O1)|(LB & e & R1)]; rewrite R1 in ER.
  2:{ right. split; [eauto|]. intros o' b' H. destruct (INV _ _ H) as (ll & dl & c & (g1 & g2 & g3 & ys & cl & all & c1 & B1 & B2 & B3 & B4 & B5 & B6 & _) & _).
      rewrite B6, app_length in LB. lia. }
  cbv zeta in ER. destruct (Nat.ltb_spec 286 (lsb h1 + 257)) as [T|T].
  { right. split; [exists Format; exact ER|]. intros o' b' H. destruct (INV _ _ H) as (ll & dl & c & (g1 & g2 & g3 & ys & cl & all & c1 & B1 & B2 & B3 & B4 & B5 & B6 & B7 & _) & _).
      rewrite E1 in B6. apply app_inj_len in B6; [|lia]. destruct B6 as [<- _]. lia. }
  unfold bind at 1 in ER. destruct (bits_spec old p 5 st1 b1 o O1 ltac:(lia)) as [(h2 & b2 & st2 & L2 & E2 & R2 & O2)|(LB & e & R2)]; rewrite R2 in ER.
  2:{ right. split; [eauto|]. intros o' b' H. destruct (INV _ _ H) as (ll & dl & c & (g1 & g2 & g3 & ys & cl & all & c1 & B1 & B2 & B3 & B4 & B5 & B6 & _) & _).
      rewrite E1 in B6. apply app_inj_len in B6; [|lia]. destruct B6 as [_ B6]. rewrite B6, app_length in LB. lia. }
  cbv zeta in ER. destruct (Nat.ltb_spec 30 (lsb h2 + 1)) as [T2|T2].
  { right. split; [exists Format; exact ER|]. intros o' b' H. destruct (INV _ _ H) as (ll & dl & c & (g1 & g2 & g3 & ys & cl & all & c1 & B1 & B2 & B3 & B4 & B5 & B6 & B7 & B8 & _) & _).
      rewrite E1, E2 in B6. apply app_inj_len in B6; [|lia]. destruct B6 as [_ B6]. apply app_inj_len in B6; [|lia]. destruct B6 as [<- _]. lia. }
  unfold bind at 1 in ER. destruct (bits_spec old p 4 st2 b2 o O2 ltac:(lia)) as [(h3 & b3 & st3 & L3 & E3 & R3 & O3)|(LB & e & R3)]; rewrite R3 in ER.
  2:{ right. split; [eauto|]. intros o' b' H. destruct (INV _ _ H) as (ll & dl & c & (g1 & g2 & g3 & ys & cl & all & c1 & B1 & B2 & B3 & B4 & B5 & B6 & _) & _).
      rewrite E1, E2 in B6. apply app_inj_len in B6; [|lia]. destruct B6 as [_ B6]. apply app_inj_len in B6; [|lia]. destruct B6 as [_ B6]. rewrite B6, app_length in LB. lia. }
  assert (LO : length (firstn (lsb h3 + 4) coden) = lsb h3 + 4).
  { rewrite firstn_length. pose proof (lsb_len 4 h3 L3) as B. cbn in B. cbn [coden length]. lia. }
  cbv zeta in ER. unfold bind at 1 in ER. destruct (headloop_spec (firstn (lsb h3 + 4) coden) st3 b3 o (repeat 0 19) O3) as [(xs & b4 & st4 & LX & FX & E4 & R4 & O4)|((e & R4) & LB)]; rewrite R4 in ER.
  2:{ right. split; [eauto|]. intros o' b' H. destruct (INV _ _ H) as (ll & dl & c & (g1 & g2 & g3 & ys & cl & all & c1 & B1 & B2 & B3 & B4 & B5 & B6 & _) & _).
      rewrite E1, E2, E3 in B6. apply app_inj_len in B6; [|lia]. destruct B6 as [_ B6]. apply app_inj_len in B6; [|lia]. destruct B6 as [_ B6].
      apply app_inj_len in B6; [|lia]. destruct B6 as [<- B6]. rewrite B6, app_length, (concat3_len ys B5) in LB. lia. }
  rewrite LO in LX. assert (HLX : length xs <= 19) by (pose proof (lsb_len 4 h3 L3) as B; cbn in B; lia).
  set (cl := setall (firstn (lsb h3 + 4) coden) (map lsb xs) (repeat 0 19)) in *.
  assert (HH : headlens xs cl). { pose proof (headlens_setall xs HLX) as X. rewrite LX in X. exact X. }
  assert (FC : Forall (fun l => l <= 15) cl).
  { apply setall_15; [|repeat (constructor; [lia|]); constructor]. clear - FX. induction FX as [|x xs L _ IH]; cbn; constructor; auto. pose proof (lsb_3 x L). lia. }
  assert (HV : forall ll dl c, header b ll dl c -> exists all, lengths cl (257 + lsb h1 + (1 + lsb h2)) [] b4 all c /\ nth 256 all 0 <> 0 /\ ll = firstn (257 + lsb h1) all /\ dl = skipn (257 + lsb h1) all).
  { intros ll dl c (g1 & g2 & g3 & ys & cl' & all & c1 & B1 & B2 & B3 & B4 & B5 & B6 & B7 & B8 & B9 & B10 & B11 & B12 & B13).
    rewrite E1, E2, E3, E4 in B6. apply app_inj_len in B6; [|lia]. destruct B6 as [<- B6]. apply app_inj_len in B6; [|lia]. destruct B6 as [<- B6].
    apply app_inj_len in B6; [|lia]. destruct B6 as [<- B6]. apply concat3_inj in B6; auto; [|lia]. destruct B6 as [<- <-].
    rewrite (headlens_unique _ _ _ B9 HH) in B10. exists all. auto. }
  unfold bind at 1 in ER. destruct (mkhufc_spec cl st4) as (hc & RH & HC); [rewrite (proj1 HH); unfold MaxSyms; lia|exact FC|]. rewrite RH in ER. unfold bind at 1 in ER.
  replace (lsb h1 + 257 + (lsb h2 + 1)) with (257 + lsb h1 + (1 + lsb h2)) in ER by lia.
  destruct (lenloop_spec old p cl hc (257 + lsb h1 + (1 + lsb h2)) HC FC (257 + lsb h1 + (1 + lsb h2) + 1) st4 b4 o [] O4) as [(all & b5 & st5 & HLN & R5 & O5 & FA)|((e & R5) & NL)]; auto; try (cbn [length]; lia); rewrite R5 in ER.
  2:{ right. split; [eauto|]. intros o' b' H. destruct (INV _ _ H) as (ll & dl & c & HD & _). destruct (HV _ _ _ HD) as (all & HL & _). apply (NL _ _ HL). }
  assert (LA : length all = 257 + lsb h1 + (1 + lsb h2)) by apply (lengths_len _ _ _ _ _ _ HLN).
  destruct (Nat.eqb_spec (nth 256 all 0) 0) as [Z|Z].
  { right. split; [exists Format; exact ER|]. intros o' b' H. destruct (INV _ _ H) as (ll & dl & c & HD & _). destruct (HV _ _ _ HD) as (all2 & HL & NZ & _).
    destruct (lengths_unique _ _ _ _ _ _ HLN _ _ HL) as [<- _]. congruence. }
  rewrite (Nat.add_comm (lsb h1)) in ER. set (ll := firstn (257 + lsb h1) all) in *. set (dl := skipn (257 + lsb h1) all) in *.
  assert (LL : length ll = 257 + lsb h1) by (unfold ll; rewrite firstn_length; lia). assert (LD : length dl = 1 + lsb h2) by (unfold dl; rewrite skipn_length; lia).
  assert (FF : Forall (fun l => l <= 15) ll /\ Forall (fun l => l <= 15) dl).
  { rewrite <- (firstn_skipn (257 + lsb h1) all) in FA. apply Forall_app in FA. exact FA. }
  destruct FF as [FL FD]. assert (HDR : header b ll dl b5).
  { exists h1, h2, h3, xs, cl, all, b4. rewrite E1, E2, E3, E4. repeat (split; [solve [auto; lia]|]). auto. }
  clearbody ll dl. clear HV. unfold bind at 1 in ER. destruct (mkhufc_spec ll st5) as (lh & RL & HLH); [unfold MaxSyms; lia|exact FL|]. rewrite RL in ER. unfold bind in ER.
  destruct (mkhufc_spec dl st5) as (dh & RD & HDH); [unfold MaxSyms; lia|exact FD|]. rewrite RD in ER. rewrite decomp_eq in ER.
  destruct (decomp_loop_spec old p ll dl lh dh HLH HDH FL FD (enough st5) st5 b5 o O5 (enough_spec old p _ _ _ O5)) as [(o' & b' & st' & C & R & O')|[(o2 & b2' & _ & U & _)|((e & R) & NC & _)]].
  - left. exists o', b', st'. split; [exact (B_dynamic o b ll dl b5 o' b' HDR C)|]. split; [rewrite ER; exact R|exact O'].
  - exfalso. revert U. apply short_undef; [rewrite LL; clear - T; lia|rewrite LD; clear - T2; lia].
  - right. split; [exists e; rewrite ER; exact R|]. intros o' b' H. destruct (INV _ _ H) as (ll' & dl' & c & HD & C). destruct (header_unique _ _ _ _ _ _ _ HDR HD) as (<- & <- & <-). apply (NC _ _ C).
Qed.
Lemma fixed_ok : length fixedlen <= MaxSyms /\ Forall (fun l => l <= 15) fixedlen /\ length fixeddst <= MaxSyms /\ Forall (fun l => l <= 15) fixeddst.
Proof.
  assert (A : forall v n, v <= 15 -> Forall (fun l => l <= 15) (repeat v n)).
  { intros v n V. apply Forall_forall. intros x X. apply repeat_spec in X. lia. }
  split; [unfold fixedlen, MaxSyms; rewrite !app_length, !repeat_length; lia|]. split; [unfold fixedlen; repeat (apply Forall_app; split); apply A; lia|].
  split; [unfold fixeddst, MaxSyms; rewrite repeat_length; lia|apply A; lia].
Qed.
(* what the code does behind the first bit of a block *)
Definition body : act unit :=
  ty <- bits 2 ;;
  match ty with
  | 0 => nocomp
  | 1 => lenhc <- mkhufc fixedlen ;; dsthc <- mkhufc fixeddst ;; decomp lenhc dsthc
  | 2 => dynamic
  | _ => fail Format
  end.
Lemma body_spec st b o : ok old p st b o ->
  (exists o' b' st', block o b o' b' /\ body st = FOk tt st' /\ ok old p st' b' o') \/
  (exists b1 o2 b2, b = true :: false :: b1 /\ items fixed_ll fixed_dl o b1 o2 b2 /\ undefined_symbol fixed_ll fixed_dl b2 /\ body st = FAbort) \/
  ((exists e, body st = FErr e) /\ (forall o' b', ~ block o b o' b') /\
   forall b1 o2 b2, b = true :: false :: b1 -> items fixed_ll fixed_dl o b1 o2 b2 -> ~ undefined_symbol fixed_ll fixed_dl b2).
Proof.
  intros O. remember (body st) as r eqn:ER. unfold body in ER. unfold bind at 1 in ER.
  destruct (bits_spec old p 2 st b o O ltac:(lia)) as [(x & b1 & st1 & LX & E & R & O1)|(LB & e & R)]; rewrite R in ER.
  2:{ right. right. split; [eauto|]. split; [intros o' b' H; inversion H; subst; cbn in LB; lia|]. intros b1 o2 b2 E. rewrite E in LB. cbn in LB. lia. }
  destruct x as [|t0 [|t1 [|? ?]]]; cbn in LX; try lia. assert (TV : lsb [t0; t1] = Nat.b2n t0 + 2 * Nat.b2n t1) by (destruct t0, t1; reflexivity). rewrite TV in ER. clear TV.
  destruct t0, t1; cbn [app Nat.b2n Nat.add Nat.mul] in E, ER; rewrite E.
  - right. right. split; [exists Format; exact ER|]. split; [intros o' b' H; inversion H|discriminate].
  - destruct fixed_ok as (F1 & F2 & F3 & F4). unfold bind at 1 in ER. destruct (mkhufc_spec fixedlen st1 F1 F2) as (lh & RL & HL). rewrite RL in ER. unfold bind in ER.
    destruct (mkhufc_spec fixeddst st1 F3 F4) as (dh & RD & HD). rewrite RD in ER. rewrite decomp_eq in ER.
    destruct (decomp_loop_spec old p fixedlen fixeddst lh dh HL HD F2 F4 (enough st1) st1 b1 o O1 (enough_spec old p _ _ _ O1)) as [(o' & b' & st' & C & R1 & O')|[(o2 & b2 & I & U & R1)|((e & R1) & NC & NU)]].
    + left. exists o', b', st'. split; [apply B_fixed; exact C|]. rewrite ER. auto.
    + right. left. exists b1, o2, b2. split; [reflexivity|]. split; [exact I|]. split; [exact U|]. rewrite ER. exact R1.
    + right. right. split; [rewrite ER; eauto|]. split; [intros o' b' H; inversion H; subst; eapply NC; eauto|]. intros c o2 b2 Q. injection Q as <-. apply NU.
  - destruct (dynamic_spec st1 b1 o O1) as [(o' & b' & st' & C & R1 & O')|((e & R1) & NC)]; rewrite R1 in ER.
    + left. exists o', b', st'. auto.
    + right. right. split; [eauto|]. split; [exact NC|discriminate].
  - destruct (nocomp_spec old p st1 b1 o O1) as [(o' & b' & st' & C & R1 & O')|((e & R1) & NC)]; rewrite R1 in ER.
    + left. exists o', b', st'. auto.
    + right. right. split; [eauto|]. split; [exact NC|discriminate].
Qed.
Lemma decode_loop_body fuel st : decode_loop (S fuel) st = (final <- bits 1 ;; body ;;; if final =? 1 then ret tt else decode_loop fuel) st.
Proof.
  cbn [decode_loop]. unfold body, bind. destruct (bits 1 st) as [f st1| | |]; auto. destruct (bits 2 st1) as [ty st2| | |]; auto.
Qed.
Lemma decode_loop_spec fuel : forall st b o, ok old p st b o -> length b < fuel ->
  (exists o1 b1 o' b' st', blocks o b o1 (true :: b1) /\ block o1 b1 o' b' /\ decode_loop fuel st = FOk tt st' /\ ok old p st' b' o') \/
  (exists o1 b1 final o2 b2, blocks o b o1 (final :: true :: false :: b1) /\ items fixed_ll fixed_dl o1 b1 o2 b2 /\ undefined_symbol fixed_ll fixed_dl b2 /\ decode_loop fuel st = FAbort) \/
  ((exists e, decode_loop fuel st = FErr e) /\ (forall o1 b1 o' b', blocks o b o1 (true :: b1) -> ~ block o1 b1 o' b') /\
   forall o1 b1 final o2 b2, blocks o b o1 (final :: true :: false :: b1) -> items fixed_ll fixed_dl o1 b1 o2 b2 -> ~ undefined_symbol fixed_ll fixed_dl b2).
Proof.
  induction fuel as [|fuel IH]; intros st b o O F; [lia|]. remember (decode_loop (S fuel) st) as r eqn:ER. rewrite decode_loop_body in ER.
  unfold bind at 1 in ER. destruct (bits_spec old p 1 st b o O ltac:(lia)) as [(x & b1 & st1 & LX & E & R & O1)|(LB & e & R)]; rewrite R in ER.
  2:{ right. right. split; [eauto|]. split; [intros o1 b1 o' b' H; inversion H; subst; cbn in LB; lia|]. intros o1 b1 fi o2 b2 H. inversion H; subst; cbn in LB; lia. }
  destruct x as [|fl [|? ?]]; cbn in LX; try lia. cbn [app] in E. unfold bind in ER.
  destruct (body_spec st1 b1 o O1) as [(o1 & b2 & st2 & B & R1 & O2)|[(b2 & o2 & b3 & E2 & I & U & R1)|((e & R1) & NB & NU)]]; rewrite R1 in ER.
  - destruct fl; cbn [lsb Nat.b2n] in ER.
    + left. exists o, b1, o1, b2, st2. split; [rewrite E; constructor|]. auto.
    + change (0 + 2 * 0 =? 1) with false in ER. cbv beta iota in ER. pose proof (block_len _ _ _ _ B) as BL. rewrite E in F. cbn in F.
      destruct (IH st2 b2 o1 O2 ltac:(lia)) as [(q1 & c1 & o' & b' & st' & H & HB & A)|[(q1 & c1 & fi & o2 & c2 & H & A)|(A & NB & NU)]].
      * left. exists q1, c1, o', b', st'. rewrite ER. split; [|auto]. rewrite E. econstructor; eauto.
      * right. left. exists q1, c1, fi, o2, c2. rewrite ER. split; [|auto]. rewrite E. econstructor; eauto.
      * right. right. rewrite ER. split; [exact A|]. split.
        -- intros q1 c1 o' b' H. rewrite E in H. inversion H as [|? ? q2 c2 ? ? HB H']; subst. destruct (block_unique _ _ _ _ _ _ B HB) as [<- <-]. apply NB. exact H'.
        -- intros q1 c1 fi o2 c2 H I. rewrite E in H. inversion H as [|? ? q2 c3 ? ? HB H']; subst.
           ++ inversion B; subst. eapply compressed_undef; eauto.
           ++ destruct (block_unique _ _ _ _ _ _ B HB) as [<- <-]. apply (NU _ _ _ _ _ H' I).
  - right. left. exists o, b2, fl, o2, b3. split; [rewrite E, E2; constructor|]. auto.
  - right. right. split; [eauto|]. split.
    + intros q1 c1 o' b' H HB. rewrite E in H. inversion H; subst; [eapply NB; eauto|eapply NB; eauto].
    + intros q1 c1 fi o2 c2 H I. rewrite E in H. inversion H; subst; [eapply NU; eauto|]. exfalso. eapply NB; eauto.
Qed.
End Dec.
