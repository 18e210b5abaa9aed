(* Lines, delimiters and integers read from a calm file. *)
From Verif Require Import Base ListX Utf_Model Utf_Spec Utf_Proofs Bio_Model Bio_Spec Bio_Proofs Bio_Read.
From Coq Require Import NArith Lia List.
Import ListNotations.
Open Scope nat_scope.

Lemma readinto_spec f k : wf f -> k <= length (held f) ->
  readinto f k = Done (setstart f (rstart f + k), firstn k (held f)).
Proof.
  intros W L. unfold readinto. pose proof (held_length f W) as HL. rewrite take_held by assumption.
  replace (rstart f + k <=? rend f) with true; [reflexivity|]. symmetry; apply Nat.leb_le. destruct W. lia.
Qed.
Lemma stream_len f : wf f -> length (stream f) <= avail f.
Proof. intros W. unfold stream, avail. rewrite app_length, held_length by exact W. unfold rest. rewrite skipn_length. lia. Qed.

(* --- lines --- *)
Lemma eolscan_spec b : forall n i, i + n <= length b ->
  match eolscan b i n with
  | Some (j, c) => exists k, j = i + k /\ k < n /\ c = nth k (slice b i (i + n)) 0%N /\ eol c /\ plain (firstn k (slice b i (i + n)))
  | None => plain (slice b i (i + n))
  end.
Proof.
  induction n as [|n IH]; intros i L.
  { cbn. rewrite Nat.add_0_r, slice_empty. constructor. }
  cbn [eolscan].
  assert (E : slice b i (i + S n) = nth i b 0%N :: slice b (S i) (S i + n)).
  { rewrite (slice_app b i (S i)) by lia. replace (i + S n) with (S i + n) by lia.
    change (nth i b 0%N :: slice b (S i) (S i + n)) with ([nth i b 0%N] ++ slice b (S i) (S i + n)). f_equal.
    unfold slice. replace (S i - i) with 1 by lia. clear - L.
    rewrite <- (Nat.add_0_r i) at 2. rewrite <- (firstn_skipn i b) at 2. rewrite app_nth2; rewrite firstn_length; [|lia].
    replace (i + 0 - Nat.min i (length b)) with 0 by lia.
    destruct (skipn i b) eqn:X; [|reflexivity]. apply (f_equal (@length N)) in X. rewrite skipn_length in X. cbn in X. lia. }
  rewrite E. destruct ((nth i b 0 =? 13) || (nth i b 0 =? 10))%N eqn:B.
  - exists 0. rewrite Nat.add_0_r. split; [reflexivity|]. split; [lia|]. split; [reflexivity|]. split; [|constructor].
    apply orb_prop in B. destruct B as [B|B]; apply N.eqb_eq in B; [left|right]; exact B.
  - assert (NE : ~ eol (nth i b 0%N)).
    { apply orb_false_elim in B. destruct B as [B1 B2]. apply N.eqb_neq in B1, B2. intros [X|X]; contradiction. }
    specialize (IH (S i) ltac:(lia)). destruct (eolscan b (S i) n) as [[j c]|].
    + destruct IH as (k & J & K & C & EO & P). exists (S k). split; [lia|]. split; [lia|]. split; [exact C|]. split; [exact EO|].
      cbn [firstn]. constructor; assumption.
    + constructor; assumption.
Qed.
Lemma plain_split a c s : forall h r, plain a -> eol c -> a ++ c :: s = h ++ r -> plain h -> exists a', a = h ++ a'.
Proof.
  intros h r P E X PH. assert (L : length h <= length a).
  { destruct (Nat.le_gt_cases (length h) (length a)); [assumption|exfalso].
    assert (N : nth_error (a ++ c :: s) (length a) = Some c) by (rewrite nth_error_app2, Nat.sub_diag by lia; reflexivity).
    rewrite X, nth_error_app1 in N by lia. apply nth_error_In in N. unfold plain in PH. rewrite Forall_forall in PH. exact (PH c N E). }
  symmetry in X. destruct (app_prefix h r a (c :: s) X L) as (a' & ->). eauto.
Qed.
Lemma plain_first a c s : forall p d q, plain a -> eol c -> plain p -> eol d -> a ++ c :: s = p ++ d :: q -> a = p /\ c = d /\ s = q.
Proof.
  intros p d q P1 E1 P2 E2 X. destruct (plain_split a c s p (d :: q) P1 E1 X P2) as (a' & ->).
  rewrite <- app_assoc in X. apply app_inv_head in X. destruct a' as [|x a'].
  - rewrite app_nil_r. cbn in X. inversion X. auto.
  - cbn in X. inversion X; subst. unfold plain in P1. rewrite Forall_forall in P1. exfalso. apply (P1 d); [|exact E2]. apply in_app_iff. right; left; reflexivity.
Qed.
Lemma plain_app a b : plain a -> plain b -> plain (a ++ b).
Proof. intros. apply Forall_app. auto. Qed.
Lemma plain_app_r a b : plain (a ++ b) -> plain b.
Proof. intros H. apply Forall_app in H. apply H. Qed.

(* what is left behind a line ended by c *)
Definition after (c : N) (s s' : list N) : Prop :=
  if (c =? 13)%N then (s' = s /\ hd 0%N s <> 10%N) \/ s = 10%N :: s' else s' = s.

Lemma decode10 b l : lead b <> None -> (b < 256)%N -> ~ In b [0xc0; 0xe0; 0xf0]%N -> b <> 10%N -> decode (b :: l) <> 10%N.
Proof.
  intros L B NI N10. unfold decode, charstep. destruct (lead b) as [len|] eqn:E; [|congruence].
  destruct (length (b :: l) <? len) eqn:LB; [cbn; discriminate|]. apply Nat.ltb_ge in LB. cbn [length] in LB. cbn [fst].
  assert (SL : forall t v, (64 ^ N.of_nat (length t) * v <= step_loop v t)%N).
  { clear. induction t as [|x t IH]; intros v; [cbn [length step_loop]; change (N.of_nat 0) with 0%N; rewrite N.pow_0_r; lia|]. cbn [step_loop length].
    rewrite shift_or; [|rewrite land_3f; apply N.mod_lt; lia]. eapply N.le_trans; [|apply IH].
    rewrite Nat2N.inj_succ, N.pow_succ_r'. rewrite (N.mul_comm 64), <- N.mul_assoc. apply N.mul_le_mono_l. lia. }
  specialize (SL (firstn (len - 1) l) (N.land b (N.shiftl 1 (N.of_nat (8 - len)) - 1))).
  destruct (len =? 1) eqn:L1.
  { apply Nat.eqb_eq in L1. subst len. cbn [Nat.sub firstn step_loop]. change (N.shiftl 1 (N.of_nat 7) - 1)%N with (N.ones 7).
    rewrite N.land_ones. unfold lead in E. destruct (N.land b 128 =? 0)%N eqn:Z.
    - apply N.eqb_eq in Z. rewrite N.mod_small; [exact N10|].
      clear - Z B. assert (T := below_all (fun b => negb (N.land b 128 =? 0) || (b <? 2 ^ 7))%N 256 ltac:(vm_compute; reflexivity) b ltac:(exact B)).
      cbv beta in T. rewrite Z in T. cbn in T. apply N.ltb_lt in T. exact T.
    - repeat match type of E with (if ?x then _ else _) = _ => destruct x; try discriminate end. }
  apply Nat.eqb_neq in L1. pose proof (lead_range _ _ E) as LR.
  assert (M : (N.land b (N.shiftl 1 (N.of_nat (8 - len)) - 1) = 0)%N -> In b [0xc0; 0xe0; 0xf0]%N).
  { clear - E B LR L1. intros Z.
    assert (T := below_all (fun b => match lead b with
      | Some len => (len =? 1) || negb (N.land b (N.shiftl 1 (N.of_nat (8 - len)) - 1) =? 0)%N || (b =? 0xc0)%N || (b =? 0xe0)%N || (b =? 0xf0)%N
      | None => true end) 256 ltac:(vm_compute; reflexivity) b ltac:(exact B)).
    cbv beta in T. rewrite E, Z in T. replace (len =? 1) with false in T by (symmetry; apply Nat.eqb_neq; exact L1).
    cbn [N.eqb negb orb] in T. apply orb_prop in T. destruct T as [T|T]; [apply orb_prop in T; destruct T as [T|T]|]; apply N.eqb_eq in T; subst; cbn; auto. }
  destruct (N.eq_dec (N.land b (N.shiftl 1 (N.of_nat (8 - len)) - 1)) 0) as [Z|Z]; [exfalso; exact (NI (M Z))|].
  revert SL.
  destruct (firstn (len - 1) l) as [|x t] eqn:F.
  { apply (f_equal (@length N)) in F. rewrite firstn_length in F. cbn in F. lia. }
  intros SL. cbn [length] in SL. rewrite Nat2N.inj_succ, N.pow_succ_r' in SL. intros X. rewrite X in SL.
  assert (1 <= 64 ^ N.of_nat (length t))%N by (pose proof (N.pow_nonzero 64 (N.of_nat (length t))); lia). nia.
Qed.

(* peeking behind '\r' finds '\n' just when it is there *)
Lemma peek_newline f s : wf f -> 4 < length (rbuf f) -> calm f -> stream f = s -> Forall isbyte s ->
  (hd 0%N s = 10%N \/ clean s) ->
  exists f' r, peekc f = Done (f', r) /\ kept f f' /\ calm f' /\
    (hd 0%N s = 10%N -> r = Ok 10%N) /\ (hd 0%N s <> 10%N -> r <> Ok 10%N).
Proof.
  intros W L C S FB CL. destruct (peekc_any f W L) as (g & r & E & K & CG & RO & RE). exists g, r. split; [exact E|]. split; [exact K|].
  split; [exact (CG C)|]. specialize (RE C). assert (SG : stream g = s) by (rewrite <- S; apply K). split.
  - intros H. destruct s as [|b s]; [discriminate|]. cbn in H. subst b. destruct r as [c|e].
    + destruct (RO c eq_refl) as (b & t & X & Y & ->). f_equal. rewrite S in X. inversion X; subst b t.
      unfold stream in SG. destruct (held g) as [|x h] eqn:HG; [cbn in Y; pose proof (leadlen_range 10); lia|]. cbn in SG. inversion SG. reflexivity.
    + destruct (RE e eq_refl) as (_ & [X|(b & t & X & Y)]); [congruence|]. rewrite S in X. inversion X; subst b.
      rewrite S in Y. cbn in Y. lia.
  - intros H X. destruct CL as [CL|CL]; [contradiction|]. subst r. destruct (RO 10%N eq_refl) as (b & t & Y1 & Y2 & Y3).
    rewrite S in Y1. rewrite Y1 in H, CL, FB, SG, S. clear s Y1. cbn in H. cbn [clean] in CL. pose proof (Forall_inv FB) as FB1.
    assert (HG : exists h, held g = b :: h).
    { destruct (held g) as [|x h] eqn:HG; [cbn in Y2; pose proof (leadlen_range b); lia|]. unfold stream in SG. rewrite HG in SG. cbn in SG. injection SG as Z1 Z2. exists h. rewrite Z1. reflexivity. }
    destruct HG as (h & HG). rewrite HG in Y3. destruct CL as [CL|(c & u & CU & CE)].
    + destruct (lead b) as [n|] eqn:LB.
      * apply (decode10 b h); auto. congruence.
      * unfold decode, charstep in Y3. rewrite LB in Y3. cbn in Y3. discriminate.
    + destruct (lead_utf8 c u CU) as (b' & l & U1 & U2 & U3). rewrite CE in *. rewrite U3 in S. 
      assert (b' = b) by (rewrite U3 in CE; inversion CE; reflexivity). subst b'.
      rewrite U2 in Y2. destruct (app_prefix (utf8 c) u (held g) (rest (dv g))) as (h' & EH); [unfold stream in SG; congruence|exact Y2|].
      rewrite <- HG, EH, decode_utf8 in Y3 by exact CU. subst c. vm_compute in U1. inversion U1; subst. contradiction.
Qed.

Lemma adv_len f s f' : adv f s f' -> length (stream f) = length s + length (stream f').
Proof. intros (_ & -> & _). apply app_length. Qed.

Lemma readln_loop_spec fuel : forall f ret a c s, wf f -> 4 < length (rbuf f) -> calm f -> Forall isbyte (stream f) ->
  stream f = a ++ c :: s -> plain a -> eol c -> (c = 13%N -> hd 0%N s = 10%N \/ clean s) -> length (stream f) < fuel ->
  exists f', readln_loop fuel f ret = Done (f', Ok (ret ++ a)) /\ calm f' /\
    adv f (if ((c =? 13) && (hd 0 s =? 10))%N then a ++ [13; 10]%N else a ++ [c]) f'.
Proof.
  induction fuel as [|fuel IH]; intros f ret a c s W L C FB ST P EO CL F; [lia|]. cbn [readln_loop].
  destruct (ensureread_spec f 1 W ltac:(lia)) as (g & r & E & K & RO & Q). rewrite E. destruct (Q C) as (CG & D).
  destruct D as [[_ [k ->]]|(X & _)]; [|rewrite ST, app_length in X; cbn in X; lia].
  specialize (RO k eq_refl). assert (Wg : wf g) by apply K. pose proof (held_length g Wg) as HL.
  assert (Lg : length (rbuf g) = length (rbuf f)) by apply K.
  assert (SG : stream g = a ++ c :: s) by (rewrite <- ST; apply K).
  assert (WB := Wg). destruct WB as [WB1 WB2].
  pose proof (eolscan_spec (rbuf g) (rend g - rstart g) (rstart g) ltac:(lia)) as SC.
  replace (rstart g + (rend g - rstart g)) with (rend g) in SC by lia. fold (held g) in SC.
  destruct (eolscan (rbuf g) (rstart g) (rend g - rstart g)) as [[j c']|].
  - destruct SC as (k' & J & KL & C' & EO' & PL).
    replace (j - rstart g) with k' by lia. rewrite readinto_spec by (exact Wg || lia).
    pose proof (adv_setstart g k' Wg ltac:(lia)) as A1.
    assert (SPL : held g = firstn k' (held g) ++ c' :: skipn (S k') (held g)).
    { rewrite <- (firstn_skipn k' (held g)) at 1. f_equal. rewrite C'. clear - KL HL.
      rewrite <- (firstn_skipn k' (held g)) at 2. rewrite app_nth2; rewrite firstn_length; [|lia].
      replace (k' - Nat.min k' (length (held g))) with 0 by lia.
      replace (skipn (S k') (held g)) with (skipn 1 (skipn k' (held g))) by (rewrite ListX.skipn_skipn; f_equal; lia).
      apply list_hd. rewrite skipn_length. lia. }
    assert (SPL2 : stream g = firstn k' (held g) ++ c' :: (skipn (S k') (held g) ++ rest (dv g))).
    { unfold stream. rewrite SPL at 1. rewrite <- app_assoc. reflexivity. }
    rewrite SG in SPL2. destruct (plain_first _ _ _ _ _ _ P EO PL EO' SPL2) as (EA & EC & ES). clear C'. subst c'.
    set (g1 := setstart g (rstart g + k')) in *. set (g2 := setstart g1 (S (rstart g1))).
    assert (A2 : adv g (a ++ [c]) g2).
    { pose proof (adv_setstart g (S k') Wg ltac:(lia)) as A. replace (firstn (S k') (held g)) with (a ++ [c]) in A.
      - unfold g2, g1. cbn. replace (S (rstart g + k')) with (rstart g + S k') by lia. exact A.
      - rewrite SPL at 1. rewrite EA. replace (S k') with (length (firstn k' (held g)) + 1) by (rewrite firstn_length; lia).
        rewrite firstn_app_exact'. reflexivity. }
    assert (AF : adv f (a ++ [c]) g2) by (eapply kept_adv_trans; [exact K|exact A2]).
    assert (S2 : stream g2 = s).
    { destruct A2 as (_ & X & _). rewrite SG in X. rewrite <- app_assoc in X. apply app_inv_head in X. cbn in X. inversion X. reflexivity. }
    rewrite <- EA. change (rstart g1) with (rstart g + k') in *.
    destruct (c =? 13)%N eqn:C13.
    + apply N.eqb_eq in C13. subst c. specialize (CL eq_refl).
      assert (FB2 : Forall isbyte s).
      { rewrite ST in FB. apply Forall_app in FB. destruct FB as [_ FB]. inversion FB; assumption. }
      assert (L2 : length (rbuf g2) = length (rbuf g)) by apply A2.
      destruct (peek_newline g2 s ltac:(apply A2) ltac:(lia) CG S2 FB2 CL) as (h & r & EP & KH & CH & Y1 & Y2).
      fold g1 g2. change (setstart g1 (S (rstart g + k'))) with g2. rewrite EP. destruct (hd 0 s =? 10)%N eqn:HD.
      * apply N.eqb_eq in HD. rewrite (Y1 HD). cbn [N.eqb Pos.eqb andb]. eexists. split; [reflexivity|]. split; [exact CH|].
        assert (SH : stream h = s) by (rewrite <- S2; apply KH).
        assert (HH : 1 <= length (held h)).
        { pose proof (proj1 KH) as WH. (* the byte was decoded from the buffer *)
          destruct (peekc_any g2 ltac:(apply A2) ltac:(lia)) as (h' & r' & EP' & _ & _ & RO' & _). rewrite EP in EP'. inversion EP'; subst h' r'.
          destruct (RO' 10%N (Y1 HD)) as (b & t & _ & Z & _). pose proof (leadlen_range b). lia. }
        pose proof (adv_setstart h 1 ltac:(apply KH) HH) as A3. replace (rstart h + 1) with (S (rstart h)) in A3 by lia.
        replace (a ++ [13; 10])%N with ((a ++ [13]) ++ [10])%N by (rewrite <- app_assoc; reflexivity).
        eapply adv_trans; [exact AF|]. eapply kept_adv_trans; [exact KH|]. replace [10%N] with (firstn 1 (held h)); [exact A3|].
        rewrite (list_hd (held h) HH). cbn [firstn]. f_equal. unfold stream in SH. destruct (held h); [cbn in HH; lia|]. cbn in *. rewrite <- SH in HD. exact HD.
      * apply N.eqb_neq in HD. rewrite Bool.andb_false_r. specialize (Y2 HD). destruct r as [c|e].
        -- destruct (c =? 10)%N eqn:C10; [apply N.eqb_eq in C10; subst; exfalso; apply Y2; reflexivity|].
           eexists. split; [reflexivity|]. split; [exact CH|]. rewrite <- (app_nil_r (a ++ [13%N])). eapply adv_trans; [exact AF|apply kept_adv; exact KH].
        -- eexists. split; [reflexivity|]. split; [exact CH|]. rewrite <- (app_nil_r (a ++ [13%N])). eapply adv_trans; [exact AF|apply kept_adv; exact KH].
    + cbn [andb]. eexists. split; [reflexivity|]. split; [exact CG|exact AF].
  - rewrite readinto_spec by (exact Wg || lia).
    destruct (plain_split a c s (held g) (rest (dv g)) P EO ltac:(symmetry; exact SG) SC) as (a' & EA).
    pose proof (adv_setstart g (rend g - rstart g) Wg ltac:(lia)) as A1. rewrite (firstn_all2 (held g)) in * by lia.
    set (g1 := setstart g (rstart g + (rend g - rstart g))) in *.
    assert (S1 : stream g1 = a' ++ c :: s).
    { destruct A1 as (_ & X & _). rewrite SG, EA, <- app_assoc in X. apply app_inv_head in X. congruence. }
    assert (AF : adv f (held g) g1) by (eapply kept_adv_trans; [exact K|exact A1]).
    pose proof (adv_len _ _ _ AF) as AL. rewrite EA in P.
    destruct (IH g1 (ret ++ held g) a' c s) as (f' & EF & CF & AF'); auto.
    { apply A1. }
    { destruct A1 as (_ & _ & _ & _ & _ & _ & X & _). lia. }
    { destruct AF as (_ & X & _). rewrite X in FB. apply Forall_app in FB. apply FB. }
    { eapply plain_app_r; exact P. }
    { lia. }
    exists f'. rewrite EF, <- app_assoc, <- EA. split; [reflexivity|]. split; [exact CF|].
    rewrite EA. pose proof (adv_trans _ _ _ _ _ AF AF') as AA. destruct ((c =? 13)%N && (hd 0 s =? 10)%N); rewrite <- app_assoc; exact AA.
Qed.
Lemma readln_loop_last fuel : forall f ret, wf f -> 4 < length (rbuf f) -> calm f -> plain (stream f) -> length (stream f) < fuel ->
  exists f', readln_loop fuel f ret = Done (f', match ret ++ stream f with [] => Err Eof | l => Ok l end) /\ calm f' /\ adv f (stream f) f'.
Proof.
  induction fuel as [|fuel IH]; intros f ret W L C P F; [lia|]. cbn [readln_loop].
  destruct (ensureread_spec f 1 W ltac:(lia)) as (g & r & E & K & RO & Q). rewrite E. destruct (Q C) as (CG & D).
  assert (Wg : wf g) by apply K. pose proof (held_length g Wg) as HL. assert (SG : stream g = stream f) by apply K.
  assert (Lg : length (rbuf g) = length (rbuf f)) by apply K.
  pose proof (adv_setstart g (rend g - rstart g) Wg ltac:(lia)) as A1. rewrite (firstn_all2 (held g)) in A1 by lia.
  assert (AF : adv f (held g) (setstart g (rstart g + (rend g - rstart g)))) by (eapply kept_adv_trans; [exact K|exact A1]).
  destruct D as [[_ [k ->]]|(X & -> & R)].
  - specialize (RO k eq_refl).
    pose proof (eolscan_spec (rbuf g) (rend g - rstart g) (rstart g)) as SC. pose proof Wg as [WB1 WB2]. specialize (SC ltac:(lia)).
    replace (rstart g + (rend g - rstart g)) with (rend g) in SC by lia. fold (held g) in SC.
    destruct (eolscan (rbuf g) (rstart g) (rend g - rstart g)) as [[j c']|].
    + exfalso. destruct SC as (k' & J & KL & C' & EO' & PL). rewrite <- SG in P. unfold stream in P.
      apply Forall_app in P. destruct P as [P _]. rewrite Forall_forall in P. apply (P c'); [|exact EO']. rewrite C'. apply nth_In. lia.
    + rewrite readinto_spec by (exact Wg || lia). rewrite (firstn_all2 (held g)) by lia.
      set (g1 := setstart g (rstart g + (rend g - rstart g))) in *.
      pose proof (adv_len _ _ _ AF) as AL.
      assert (SF : stream f = held g ++ stream g1) by apply AF.
      destruct (IH g1 (ret ++ held g)) as (f' & EF & CF & AF'); auto.
      { apply A1. }
      { destruct A1 as (_ & _ & _ & _ & _ & _ & Y & _). lia. }
      { rewrite SF in P. eapply plain_app_r; exact P. }
      { lia. }
      exists f'. rewrite EF, <- app_assoc, <- SF. split; [reflexivity|]. split; [exact CF|].
      pose proof (adv_trans _ _ _ _ _ AF AF') as AA. rewrite <- SF in AA. exact AA.
  - rewrite readinto_spec by (exact Wg || lia). rewrite (firstn_all2 (held g)) by lia.
    assert (SF : stream f = held g) by (rewrite <- SG; apply held_nil_stream; exact R). rewrite SF.
    eexists. split; [reflexivity|]. split; [exact CG|exact AF].
Qed.
