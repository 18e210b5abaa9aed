(* Filling the read buffer: what every device leaves true, and what a device without faults adds. *)
From Verif Require Import Base ListX Utf_Model Bio_Model.
From Coq Require Import NArith Lia List.
Import ListNotations.
Open Scope nat_scope.

Definition rest (d : dev) : list N := skipn (pos d) (data d).
Definition held (f : file) : list N := slice (rbuf f) (rstart f) (rend f).
Definition stream (f : file) : list N := held f ++ rest (dv f).
Definition wf (f : file) : Prop := rstart f <= rend f <= length (rbuf f).
Definition quiet (d : dev) : Prop := Forall (fun ev => exists k, ev = Upto (S k)) (events d).
Definition calm (f : file) : Prop := lasterr f = 0%N /\ quiet (dv f).

Arguments blit : simpl never.
Arguments slice : simpl never.
Lemma slice_length b i j : j <= length b -> length (slice b i j) = j - i.
Proof. intros. unfold slice. rewrite firstn_length, skipn_length. lia. Qed.
Lemma held_length f : wf f -> length (held f) = rend f - rstart f.
Proof. intros [H1 H2]. apply slice_length. exact H2. Qed.
Lemma firstn_plus {A} (l : list A) : forall a b, firstn (a + b) l = firstn a l ++ firstn b (skipn a l).
Proof. induction l as [|x l IH]; intros [|a] b; cbn; rewrite ?firstn_nil; auto. rewrite IH. reflexivity. Qed.
Lemma slice_app b i j k : i <= j -> j <= k -> slice b i k = slice b i j ++ slice b j k.
Proof.
  intros. unfold slice. replace (k - i) with ((j - i) + (k - j)) by lia.
  rewrite firstn_plus. rewrite ListX.skipn_skipn. replace (i + (j - i)) with j by lia. reflexivity.
Qed.
Lemma slice_blit_hit b i s : i + length s <= length b -> slice (blit b i s) i (i + length s) = s.
Proof.
  intros. unfold slice, blit. replace (i + length s - i) with (length s) by lia.
  rewrite skipn_app, skipn_all2 by (rewrite firstn_length; lia). rewrite firstn_length, Nat.min_l by lia.
  rewrite Nat.sub_diag. cbn [skipn app]. apply firstn_app_exact.
Qed.
Lemma slice_blit_before b i s j k : k <= i -> i + length s <= length b -> slice (blit b i s) j k = slice b j k.
Proof.
  intros. unfold slice, blit. destruct (Nat.le_gt_cases j i).
  - rewrite skipn_app, firstn_app. rewrite firstn_length, Nat.min_l by lia.
    rewrite skipn_length, firstn_length, Nat.min_l by lia. replace (k - j - (i - j)) with 0 by lia. cbn [firstn].
    rewrite app_nil_r. rewrite skipn_firstn_comm. rewrite firstn_firstn. f_equal. lia.
  - replace (k - j) with 0 by lia. reflexivity.
Qed.
Lemma blit_length b i s : i + length s <= length b -> length (blit b i s) = length b.
Proof. intros. unfold blit. rewrite !app_length, firstn_length, skipn_length. lia. Qed.
Lemma slice_empty b i : slice b i i = [].
Proof. unfold slice. rewrite Nat.sub_diag. reflexivity. Qed.
Lemma nth_slice b i j k : i + k < j -> nth k (slice b i j) 0%N = nth (i + k) b 0%N.
Proof.
  intros. unfold slice.
  rewrite <- (firstn_skipn (j - i) (skipn i b)) at 1.
  destruct (Nat.lt_ge_cases (i + k) (length b)).
  - rewrite firstn_skipn. apply nth_error_nth. rewrite ListX.nth_error_firstn.
    replace (k <? j - i) with true by (symmetry; apply Nat.ltb_lt; lia).
    rewrite ListX.nth_error_skipn. apply nth_error_nth_lt. lia.
  - rewrite firstn_skipn. rewrite !nth_overflow; auto. rewrite firstn_length, skipn_length. lia.
Qed.

(* --- the device --- *)
Lemma rest_take d k : skipn (pos d + length (firstn k (rest d))) (data d) = skipn k (rest d).
Proof.
  unfold rest at 2. rewrite firstn_length. rewrite <- ListX.skipn_skipn.
  fold (rest d). destruct (Nat.le_gt_cases k (length (rest d))).
  - rewrite Nat.min_l by lia. reflexivity.
  - rewrite Nat.min_r by lia. rewrite !skipn_all2 by lia. reflexivity.
Qed.
Lemma devread_ok d n d' bs : devread d n = (d', SysOk bs) -> rest d = bs ++ rest d' /\ length bs <= n /\ data d' = data d.
Proof.
  unfold devread. fold (rest d). destruct (events d) as [|[k|e] es]; intros H; inversion H; subst.
  - split; [|split; [rewrite firstn_length; lia|reflexivity]]. unfold rest at 3. cbn [pos data].
    rewrite rest_take. symmetry; apply firstn_skipn.
  - split; [|split; [rewrite firstn_length; lia|reflexivity]]. unfold rest at 3. cbn [pos data].
    rewrite rest_take. symmetry; apply firstn_skipn.
Qed.
Lemma devread_err d n d' e : devread d n = (d', SysErr e) -> rest d' = rest d /\ data d' = data d.
Proof. unfold devread. destruct (events d) as [|[k|e'] es]; intros H; inversion H; subst. split; reflexivity. Qed.
Lemma devread_quiet d n : quiet d -> exists d' bs, devread d n = (d', SysOk bs) /\ quiet d' /\ (bs = [] -> n = 0 \/ rest d = []).
Proof.
  intros Q. unfold devread. fold (rest d). unfold quiet in *. destruct (events d) as [|ev es].
  - do 2 eexists. split; [reflexivity|]. split; [constructor|]. destruct n; [auto|]. destruct (rest d); [auto|discriminate].
  - inversion Q as [|x y [k E] Q']; subst. do 2 eexists. split; [reflexivity|]. split; [exact Q'|].
    destruct n; [auto|]. destruct (rest d); [auto|discriminate].
Qed.

(* --- filling --- *)
(* what every fetch leaves as it was *)
Definition kept (f f' : file) : Prop :=
  wf f' /\ stream f' = stream f /\ rd f' = rd f /\ wr f' = wr f /\ wbuf f' = wbuf f /\ wend f' = wend f /\
  length (rbuf f') = length (rbuf f) /\ data (dv f') = data (dv f) /\ length (held f) <= length (held f') .
Lemma kept_refl f : wf f -> kept f f.
Proof. unfold kept. auto 12. Qed.
Lemma kept_trans f g h : kept f g -> kept g h -> kept f h.
Proof.
  intros (A1 & A2 & A3 & A4 & A5 & A6 & A7 & A8 & A9) (B1 & B2 & B3 & B4 & B5 & B6 & B7 & B8 & B9).
  unfold kept. repeat split; try congruence; try apply B1. lia.
Qed.
Lemma kept_seterr f f' e : kept f f' -> kept f (seterr f' e).
Proof. intros H. exact H. Qed.
Lemma kept_bound f f' : kept f f' -> length (held f') <= length (stream f).
Proof. intros (_ & S & _). rewrite <- S. unfold stream. rewrite app_length. lia. Qed.

Lemma fill_loop_spec fuel : forall f mn count, wf f -> mn - count < fuel ->
  exists f' r, fill_loop fuel f mn count = Done (f', r) /\ kept f f' /\ rstart f' = rstart f /\
    (forall n, r = Ok n -> n = count + (length (held f') - length (held f))) /\
    (calm f -> calm f' /\ r = finish (count + (length (held f') - length (held f))) /\
       (mn <= count + (length (held f') - length (held f)) \/ rest (dv f') = [] \/ rend f' = length (rbuf f'))).
Proof.
  induction fuel as [|fuel IH]; intros f mn count W F; [lia|]. cbn [fill_loop].
  destruct (count <? mn) eqn:C.
  2: { apply Nat.ltb_ge in C. exists f, (finish count). split; [reflexivity|]. split; [apply kept_refl; exact W|].
       split; [reflexivity|]. rewrite Nat.sub_diag, Nat.add_0_r. split.
       { intros n E. destruct count; inversion E; reflexivity. }
       intros Q. split; [exact Q|]. split; [reflexivity|]. left; exact C. }
  apply Nat.ltb_lt in C.
  destruct (devread (dv f) (length (rbuf f) - rend f)) as [d r] eqn:D. destruct r as [bs|e].
  - destruct (devread_ok _ _ _ _ D) as (R & L & DA).
    assert (K0 : kept f (setdv f d) -> True) by auto.
    destruct bs as [|b bs].
    + exists (setdv f d), (finish count). split; [reflexivity|].
      assert (K : kept f (setdv f d)).
      { unfold kept, stream, held. cbn. rewrite R. cbn [app]. split; [exact W|]. auto 12. }
      split; [exact K|]. split; [reflexivity|]. change (held (setdv f d)) with (held f). rewrite Nat.sub_diag, Nat.add_0_r. split.
      { intros n E. destruct count; inversion E; reflexivity. }
      intros [Q1 Q2]. destruct (devread_quiet (dv f) (length (rbuf f) - rend f) Q2) as (d2 & bs2 & D2 & Q3 & Q4).
      rewrite D in D2. inversion D2; subst d2 bs2. split; [split; [exact Q1|exact Q3]|]. split; [reflexivity|].
      right. destruct (Q4 eq_refl) as [N|N].
      * right. cbn. destruct W. lia.
      * left. cbn. rewrite N in R. cbn in R. auto.
    + remember (b :: bs) as l eqn:El. assert (l <> []) by (subst; discriminate).
      assert (Ll : 1 <= length l) by (subst; cbn; lia).
      match goal with |- context [fill_loop fuel ?g _ _] => set (g0 := g) end.
      destruct W as [W1 W2].
      assert (Wg : wf g0).
      { unfold wf, g0. cbn. rewrite blit_length by lia. lia. }
      assert (Hg : held g0 = held f ++ l).
      { unfold held, g0. cbn. rewrite (slice_app _ (rstart f) (rend f)) by lia. rewrite slice_blit_before by lia.
        rewrite slice_blit_hit by lia. reflexivity. }
      assert (K : kept f g0).
      { unfold kept. split; [exact Wg|]. split.
        { unfold stream. rewrite Hg. rewrite R. change (dv g0) with d. rewrite <- app_assoc. reflexivity. }
        do 4 (split; [reflexivity|]). split; [unfold g0; cbn; apply blit_length; lia|]. split; [exact DA|].
        rewrite Hg, app_length. lia. }
      destruct (IH g0 mn (count + length l) Wg ltac:(lia)) as (f' & r & E & K' & ST & RO & QQ).
      assert (HL : length (held g0) = length (held f) + length l) by (rewrite Hg, app_length; reflexivity).
      assert (HL2 : length (held g0) <= length (held f')) by apply K'.
      exists f', r. split; [subst l; exact E|]. split; [eapply kept_trans; [exact K|exact K']|]. split; [rewrite ST; reflexivity|].
      replace (count + (length (held f') - length (held f))) with (count + length l + (length (held f') - length (held g0))) by lia.
      split; [exact RO|].
      intros [Q1 Q2]. apply QQ. split; [exact Q1|].
      destruct (devread_quiet (dv f) (length (rbuf f) - rend f) Q2) as (d2 & bs2 & D2 & Q3 & Q4).
      rewrite D in D2. inversion D2 as [[E1 E2]]. change (quiet d). rewrite E1. exact Q3.
  - destruct (devread_err _ _ _ _ D) as (R & DA).
    assert (K : kept f (setdv f d)).
    { unfold kept, stream, held. cbn. rewrite R. split; [exact W|]. auto 12. }
    assert (NQ : ~ quiet (dv f)).
    { intros Q. destruct (devread_quiet (dv f) (length (rbuf f) - rend f) Q) as (d2 & bs2 & D2 & _).
      rewrite D in D2. discriminate. }
    destruct count as [|c].
    + exists (setdv f d), (Err (errtype e)). split; [reflexivity|]. split; [exact K|]. split; [reflexivity|]. split; [discriminate|].
      intros [_ Q]. contradiction.
    + exists (seterr (setdv f d) e), (finish (S c)). split; [reflexivity|]. split; [exact K|]. split; [reflexivity|]. split.
      { intros n E. inversion E. change (held (seterr (setdv f d) e)) with (held f). lia. }
      intros [_ Q]. contradiction.
Qed.

(* after fill, from a buffer holding less than mn bytes *)
Lemma fill_spec f mn : wf f -> length (held f) < mn ->
  exists f' r, fill f mn = Done (f', r) /\ kept f f' /\
    (forall n, r = Ok n -> n = length (held f') - length (held f)) /\
    (calm f -> calm f' /\ r = finish (length (held f') - length (held f)) /\
       (mn <= length (held f') - length (held f) \/ rest (dv f') = [] \/ length (held f') = length (rbuf f'))).
Proof.
  intros W L. unfold fill. destruct (lasterr f =? 0)%N eqn:LE.
  2: { cbn [negb]. do 2 eexists. split; [reflexivity|]. split; [apply kept_seterr, kept_refl; exact W|]. split; [discriminate|].
       intros [Q _]. apply N.eqb_neq in LE. contradiction. }
  cbn [negb]. pose proof (held_length f W) as HL.
  replace (rend f - rstart f <? mn) with true by (symmetry; apply Nat.ltb_lt; lia).
  set (g := setr f (blit (rbuf f) 0 (slice (rbuf f) (rstart f) (rend f))) 0 (rend f - rstart f)).
  assert (SL : length (slice (rbuf f) (rstart f) (rend f)) = rend f - rstart f) by (apply slice_length; apply W).
  assert (Wf := W). destruct W as [W1 W2].
  assert (Hg : held g = held f).
  { unfold held at 1, g. cbn. rewrite <- SL. change (length (slice (rbuf f) (rstart f) (rend f))) with (0 + length (slice (rbuf f) (rstart f) (rend f))) at 1.
    rewrite slice_blit_hit by lia. reflexivity. }
  assert (Lg : length (rbuf g) = length (rbuf f)) by (unfold g; cbn; apply blit_length; lia).
  assert (Wg : wf g).
  { unfold wf. rewrite Lg. unfold g; cbn. lia. }
  destruct (fill_loop_spec (S mn) g mn 0 Wg ltac:(lia)) as (f' & r & E & K & ST & RO & QQ).
  exists f', r. split; [exact E|].
  assert (K1 : kept f g).
  { unfold kept. split; [exact Wg|]. split; [unfold stream; rewrite Hg; reflexivity|]. do 4 (split; [reflexivity|]).
    split; [exact Lg|]. split; [reflexivity|]. rewrite Hg. lia. }
  split; [eapply kept_trans; eauto|]. rewrite Hg in *. cbn [Nat.add] in *. split; [exact RO|].
  intros Q. destruct (QQ Q) as (Q1 & Q2 & Q3). split; [exact Q1|]. split; [exact Q2|].
  destruct Q3 as [Q3|[Q3|Q3]]; auto. right; right. rewrite held_length by apply K. rewrite ST. cbn. lia.
Qed.

Lemma ensureread_spec f n : wf f -> n < length (rbuf f) ->
  exists f' r, ensureread f n = Done (f', r) /\ kept f f' /\
    (forall k, r = Ok k -> n <= length (held f')) /\
    (calm f -> calm f' /\
       ((n <= length (stream f) /\ exists k, r = Ok k) \/
        (length (stream f) < n /\ r = Err Eof /\ rest (dv f') = []))).
Proof.
  intros W L. unfold ensureread. replace (n <? length (rbuf f)) with true by (symmetry; apply Nat.ltb_lt; lia).
  pose proof (held_length f W) as HL. rewrite <- HL.
  destruct (length (held f) <? n) eqn:C.
  2: { apply Nat.ltb_ge in C. exists f, (Ok n). split; [reflexivity|]. split; [apply kept_refl; exact W|].
       split; [intros; lia|]. intros Q. split; [exact Q|]. left. split; [|eauto]. unfold stream. rewrite app_length. lia. }
  apply Nat.ltb_lt in C. destruct (fill_spec f n W C) as (f' & r & E & K & RO & QQ). rewrite E.
  assert (HH : length (held f) <= length (held f')) by apply K.
  assert (SS : length (stream f) = length (held f') + length (rest (dv f'))).
  { destruct K as (_ & S & _). rewrite <- S. unfold stream. apply app_length. }
  assert (LR : length (rbuf f') = length (rbuf f)) by apply K.
  destruct r as [len|e].
  - specialize (RO len eq_refl). destruct (n <=? length (held f) + len) eqn:C2.
    + apply Nat.leb_le in C2. exists f', (Ok len). split; [reflexivity|]. split; [exact K|]. split; [intros; lia|].
      intros Q. destruct (QQ Q) as (Q1 & Q2 & Q3). split; [exact Q1|]. left. split; [lia|eauto].
    + apply Nat.leb_gt in C2. exists f', (Err Eof). split; [reflexivity|]. split; [exact K|]. split; [discriminate|].
      intros Q. destruct (QQ Q) as (Q1 & Q2 & Q3). split; [exact Q1|]. right.
      destruct Q3 as [Q3|[Q3|Q3]]; [lia| |lia]. rewrite Q3 in *. cbn in SS. split; [lia|auto].
  - exists f', (Err e). split; [reflexivity|]. split; [exact K|]. split; [discriminate|].
    intros Q. destruct (QQ Q) as (Q1 & Q2 & Q3). split; [exact Q1|]. right.
    unfold finish in Q2. destruct (length (held f') - length (held f)) eqn:Z; [|discriminate].
    destruct Q3 as [Q3|[Q3|Q3]]; [lia| |lia]. rewrite Q3 in *. cbn in SS. split; [lia|]. split; [exact Q2|reflexivity].
Qed.
