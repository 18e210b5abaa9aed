(* The reading calls against the byte stream: the bytes held in the buffer followed by those still on the device. *)
From Verif Require Import Base ListX Utf_Model Utf_Spec Utf_Proofs Bio_Model Bio_Spec Bio_Proofs.
From Coq Require Import NArith Lia List.
Import ListNotations.
Open Scope nat_scope.

(* s bytes further on *)
Definition adv (f : file) (s : list N) (f' : file) : Prop :=
  wf f' /\ stream f = s ++ stream f' /\ rd f' = rd f /\ wr f' = wr f /\ wbuf f' = wbuf f /\ wend f' = wend f /\
  length (rbuf f') = length (rbuf f) /\ data (dv f') = data (dv f).
Lemma kept_adv f f' : kept f f' -> adv f [] f'.
Proof. intros (A1 & A2 & A3 & A4 & A5 & A6 & A7 & A8 & A9). unfold adv. cbn. auto 12. Qed.
Lemma adv_trans f s g t h : adv f s g -> adv g t h -> adv f (s ++ t) h.
Proof.
  intros (A1 & A2 & A3 & A4 & A5 & A6 & A7 & A8) (B1 & B2 & B3 & B4 & B5 & B6 & B7 & B8).
  unfold adv. repeat split; try congruence; try apply B1. rewrite A2, B2, app_assoc. reflexivity.
Qed.
Lemma kept_adv_trans f g t h : kept f g -> adv g t h -> adv f t h.
Proof. intros K A. exact (adv_trans f [] g t h (kept_adv _ _ K) A). Qed.

Lemma take_held f k : wf f -> k <= length (held f) -> slice (rbuf f) (rstart f) (rstart f + k) = firstn k (held f).
Proof.
  intros W L. rewrite held_length in L by exact W. unfold held, slice. rewrite firstn_firstn. f_equal. lia.
Qed.
Lemma held_setstart f k : wf f -> k <= length (held f) -> held (setstart f (rstart f + k)) = skipn k (held f).
Proof.
  intros W L. rewrite held_length in L by exact W. unfold held, setstart. cbn. unfold slice.
  rewrite skipn_firstn_comm, ListX.skipn_skipn. f_equal. lia.
Qed.
Lemma adv_setstart f k : wf f -> k <= length (held f) -> adv f (firstn k (held f)) (setstart f (rstart f + k)).
Proof.
  intros W L. unfold adv. split.
  { unfold wf. cbn. rewrite held_length in L by exact W. destruct W. lia. }
  split; [|auto 10]. unfold stream. rewrite held_setstart by assumption. cbn [dv setstart setr].
  rewrite app_assoc, firstn_skipn. reflexivity.
Qed.
Lemma firstn_stream f k : k <= length (held f) -> firstn k (stream f) = firstn k (held f).
Proof. intros. unfold stream. rewrite firstn_app. replace (k - length (held f)) with 0 by lia. cbn. apply app_nil_r. Qed.
Lemma nth_held f k : wf f -> k < length (held f) -> nth k (held f) 0%N = nth (rstart f + k) (rbuf f) 0%N.
Proof. intros W L. rewrite held_length in L by exact W. apply nth_slice. lia. Qed.
Lemma held_nil_stream f : rest (dv f) = [] -> stream f = held f.
Proof. intros R. unfold stream. rewrite R. apply app_nil_r. Qed.

(* The answers a call may give on any device; on a device without faults an error means the end *)
Definition answers {A} (f : file) (n : nat) (good : A -> list N -> Prop) (o : outcome (file * result A)) : Prop :=
  exists f' r, o = Done (f', r) /\
    (match r with
     | Ok a => exists s, good a s /\ adv f s f'
     | Err _ => adv f [] f'
     end) /\
    (calm f -> calm f' /\ (forall e, r = Err e -> e = Eof /\ length (stream f) < n)).

Lemma list_hd (l : list N) : 1 <= length l -> l = nth 0 l 0%N :: skipn 1 l.
Proof. destruct l; cbn; [lia|reflexivity]. Qed.

Lemma getb_spec f : wf f -> rd f = true -> 1 < length (rbuf f) -> answers f 1 (fun b s => s = [b]) (getb f).
Proof.
  intros W R L. unfold getb. rewrite R. cbn [negb]. destruct (ensureread_spec f 1 W L) as (g & r & E & K & RO & Q).
  rewrite E. assert (Wg : wf g) by apply K. destruct r as [k|e].
  - specialize (RO k eq_refl). eexists _, _. split; [reflexivity|]. split.
    + exists [nth (rstart g) (rbuf g) 0%N]. split; [reflexivity|].
      eapply kept_adv_trans; [exact K|]. pose proof (adv_setstart g 1 Wg RO) as A. replace (S (rstart g)) with (rstart g + 1) by lia.
      replace (firstn 1 (held g)) with ([nth (rstart g) (rbuf g) 0%N]) in A; [exact A|].
      pose proof (nth_held g 0 Wg ltac:(lia)) as N. rewrite Nat.add_0_r in N. rewrite <- N. rewrite (list_hd (held g)) at 2 by lia. reflexivity.
    + intros C. split; [apply (Q C)|discriminate].
  - eexists _, _. split; [reflexivity|]. split; [apply kept_adv; exact K|].
    intros C. destruct (Q C) as (C' & [[_ [k X]]|(X & Y & _)]); [discriminate|]. split; [exact C'|].
    intros e' E'. inversion E'; inversion Y; subst. auto.
Qed.

Lemma peekb_spec f : wf f -> 1 < length (rbuf f) ->
  exists f' r, peekb f = Done (f', r) /\ kept f f' /\ (forall b, r = Ok b -> exists t, stream f = b :: t) /\
    (calm f -> calm f' /\ (forall e, r = Err e -> e = Eof /\ stream f = [])).
Proof.
  intros W L. unfold peekb. destruct (ensureread_spec f 1 W L) as (g & r & E & K & RO & Q).
  rewrite E. assert (Wg : wf g) by apply K. assert (S : stream g = stream f) by apply K. destruct r as [k|e].
  - specialize (RO k eq_refl). eexists _, _. split; [reflexivity|]. split; [exact K|]. split.
    + intros b X. inversion X. rewrite <- S. unfold stream.
      pose proof (nth_held g 0 Wg ltac:(lia)) as N. rewrite Nat.add_0_r in N. rewrite <- N. rewrite (list_hd (held g)) by lia.
      cbn. eauto.
    + intros C. split; [apply (Q C)|discriminate].
  - eexists _, _. split; [reflexivity|]. split; [exact K|]. split; [discriminate|].
    intros C. destruct (Q C) as (C' & [[_ [k X]]|(X & Y & _)]); [discriminate|]. split; [exact C'|].
    intros e' E'. inversion E'; inversion Y; subst. split; [reflexivity|]. apply length_zero_iff_nil. lia.
Qed.

(* --- characters --- *)
Definition leadlen (b : N) : nat := match lead b with Some len => len | None => 1 end.
Lemma leadlen_range b : 1 <= leadlen b <= 4.
Proof. unfold leadlen. destruct (lead b) eqn:E; [|lia]. apply lead_range in E. exact E. Qed.

Lemma ensurecodepoint_spec f : wf f -> 4 < length (rbuf f) ->
  exists f' r, ensurecodepoint f = Done (f', r) /\ kept f f' /\
    (forall k, r = Ok k -> exists b t, stream f = b :: t /\ leadlen b <= length (held f')) /\
    (calm f -> calm f' /\ (forall e, r = Err e -> e = Eof /\
       (stream f = [] \/ exists b t, stream f = b :: t /\ length (stream f) < leadlen b))).
Proof.
  intros W L. unfold ensurecodepoint. destruct (ensureread_spec f 1 W ltac:(lia)) as (g & r & E & K & RO & Q).
  rewrite E. assert (Wg : wf g) by apply K. assert (S : stream g = stream f) by apply K. destruct r as [k|e].
  - specialize (RO k eq_refl).
    pose proof (nth_held g 0 Wg ltac:(lia)) as N. rewrite Nat.add_0_r in N. rewrite <- N.
    pose proof (list_hd (held g) ltac:(lia)) as HH. set (b := nth 0 (held g) 0%N) in *.
    assert (SB : stream f = b :: (skipn 1 (held g) ++ rest (dv g))).
    { rewrite <- S. unfold stream. rewrite HH at 1. reflexivity. }
    fold (leadlen b). pose proof (leadlen_range b) as LR.
    assert (Lg : length (rbuf g) = length (rbuf f)) by apply K.
    destruct (ensureread_spec g (leadlen b) Wg ltac:(lia)) as (h & r2 & E2 & K2 & RO2 & Q2). rewrite E2.
    exists h, r2. split; [reflexivity|]. split; [eapply kept_trans; [exact K|exact K2]|]. split.
    + intros j X. specialize (RO2 j X). eauto.
    + intros C. destruct (Q C) as (C1 & _). destruct (Q2 C1) as (C2 & D). split; [exact C2|].
      intros e X. destruct D as [[_ [j Y]]|(X1 & X2 & _)]; [congruence|]. rewrite X in X2. inversion X2. split; [reflexivity|].
      right. rewrite S in X1. eauto.
  - exists g, (Err e). split; [reflexivity|]. split; [exact K|]. split; [discriminate|].
    intros C. destruct (Q C) as (C' & [[_ [k X]]|(X & Y & _)]); [discriminate|]. split; [exact C'|].
    intros e' E'. inversion E'; inversion Y; subst. split; [reflexivity|]. left. apply length_zero_iff_nil. lia.
Qed.

Lemma lead_utf8 c t : (c < 0x200000)%N -> exists b l, utf8 c = b :: l /\ leadlen b = length (utf8 c) /\ utf8 c ++ t = b :: l ++ t.
Proof.
  intros C. unfold utf8. destruct (c <? 0x80)%N eqn:E1; [|destruct (c <? 0x800)%N eqn:E2; [|destruct (c <? 0x10000)%N eqn:E3]];
    do 2 eexists; (split; [reflexivity|]); (split; [|reflexivity]); cbn [length]; unfold leadlen.
  - apply N.ltb_lt in E1. destruct (lead1 c ltac:(lia)) as [-> _]. reflexivity.
  - apply N.ltb_lt in E2. destruct (lead2 (c / 64)) as [-> _]; [apply N.div_lt_upper_bound; lia|]. reflexivity.
  - apply N.ltb_lt in E3. destruct (lead3 (c / 4096)) as [-> _]; [apply N.div_lt_upper_bound; lia|]. reflexivity.
  - destruct (lead4 (c / 262144)) as [-> _]; [apply N.div_lt_upper_bound; lia|]. reflexivity.
Qed.
Lemma app_prefix {A} (x s h r : list A) : x ++ s = h ++ r -> length x <= length h -> exists h', h = x ++ h'.
Proof.
  intros E L. exists (skipn (length x) h). rewrite <- (firstn_skipn (length x) h) at 1. f_equal.
  assert (X : firstn (length x) (x ++ s) = firstn (length x) (h ++ r)) by congruence.
  rewrite firstn_app_exact in X. rewrite firstn_app in X. replace (length x - length h) with 0 in X by lia. cbn in X.
  rewrite app_nil_r in X. congruence.
Qed.
Lemma decode_utf8 c t : (c < 0x200000)%N -> decode (utf8 c ++ t) = c.
Proof. intros. unfold decode. rewrite charstep_utf8 by assumption. reflexivity. Qed.

(* what peekc and getc see when a character comes next *)
Lemma codepoint_next f c s g r : (c < 0x200000)%N -> stream f = utf8 c ++ s -> kept f g ->
  (forall k, r = @Ok nat k -> exists b t, stream f = b :: t /\ leadlen b <= length (held g)) -> forall k, r = Ok k ->
  decode (slice (rbuf g) (rstart g) (rend g)) = c /\ length (utf8 c) <= length (held g) /\ firstn (charlen c) (held g) = utf8 c.
Proof.
  intros C S K RO k X. destruct (RO k X) as (b & t & S1 & LL). destruct (lead_utf8 c s C) as (b' & l & U1 & U2 & U3).
  rewrite S, U3 in S1. inversion S1; subst b'. rewrite U2 in LL.
  assert (SG : stream g = stream f) by apply K.
  destruct (app_prefix (utf8 c) s (held g) (rest (dv g))) as (h' & E); [unfold stream in *; congruence|lia|].
  change (slice (rbuf g) (rstart g) (rend g)) with (held g). rewrite E. rewrite decode_utf8 by exact C.
  rewrite charlen_utf8 by exact C. rewrite firstn_app_exact, app_length. split; [reflexivity|]. split; [lia|reflexivity].
Qed.
Lemma codepoint_nofail f c s : (c < 0x200000)%N -> stream f = utf8 c ++ s ->
  ~ (stream f = [] \/ exists b t, stream f = b :: t /\ length (stream f) < leadlen b).
Proof.
  intros C S. destruct (lead_utf8 c s C) as (b' & l & U1 & U2 & U3). intros [X|(b & t & X & Y)].
  - rewrite S, U3 in X. discriminate.
  - rewrite X in S. rewrite U3 in S. inversion S; subst b'. rewrite X in Y. rewrite S in Y. rewrite U2, U1 in Y.
    cbn in Y. rewrite app_length in Y. lia.
Qed.

Lemma getc_spec f c s : wf f -> rd f = true -> 4 < length (rbuf f) -> (c < 0x200000)%N -> stream f = utf8 c ++ s ->
  exists f' r, getc f = Done (f', r) /\
    match r with Ok c' => c' = c /\ adv f (utf8 c) f' | Err _ => adv f [] f' end /\
    (calm f -> calm f' /\ r = Ok c).
Proof.
  intros W R L C S. unfold getc. rewrite R. cbn [negb].
  destruct (ensurecodepoint_spec f W L) as (g & r & E & K & RO & Q). rewrite E. assert (Wg : wf g) by apply K.
  destruct r as [k|e].
  - destruct (codepoint_next f c s g _ C S K RO k eq_refl) as (D & LL & F). rewrite D.
    eexists _, _. split; [reflexivity|]. split.
    + split; [reflexivity|]. rewrite <- F. eapply kept_adv_trans; [exact K|]. apply adv_setstart; [exact Wg|].
      rewrite charlen_utf8 by exact C. exact LL.
    + intros CA. split; [apply (Q CA)|reflexivity].
  - eexists _, _. split; [reflexivity|]. split; [apply kept_adv; exact K|]. intros CA. destruct (Q CA) as (_ & X).
    destruct (X e eq_refl) as (_ & Y). exfalso. exact (codepoint_nofail f c s C S Y).
Qed.
Lemma peekc_spec f c s : wf f -> 4 < length (rbuf f) -> (c < 0x200000)%N -> stream f = utf8 c ++ s ->
  exists f' r, peekc f = Done (f', r) /\ kept f f' /\
    (forall c', r = Ok c' -> c' = c) /\
    (calm f -> calm f' /\ r = Ok c).
Proof.
  intros W L C S. unfold peekc.
  destruct (ensurecodepoint_spec f W L) as (g & r & E & K & RO & Q). rewrite E. assert (Wg : wf g) by apply K.
  destruct r as [k|e].
  - destruct (codepoint_next f c s g _ C S K RO k eq_refl) as (D & LL & F). rewrite D.
    eexists _, _. split; [reflexivity|]. split; [exact K|]. split; [congruence|].
    intros CA. split; [apply (Q CA)|reflexivity].
  - eexists _, _. split; [reflexivity|]. split; [exact K|]. split; [discriminate|]. intros CA. destruct (Q CA) as (_ & X).
    destruct (X e eq_refl) as (_ & Y). exfalso. exact (codepoint_nofail f c s C S Y).
Qed.
(* peeking at whatever comes next *)
Lemma peekc_any f : wf f -> 4 < length (rbuf f) ->
  exists f' r, peekc f = Done (f', r) /\ kept f f' /\ (calm f -> calm f') /\
    (forall c, r = Ok c -> exists b t, stream f = b :: t /\ leadlen b <= length (held f') /\ c = decode (held f')) /\
    (calm f -> forall e, r = Err e -> e = Eof /\ (stream f = [] \/ exists b t, stream f = b :: t /\ length (stream f) < leadlen b)).
Proof.
  intros W L. unfold peekc.
  destruct (ensurecodepoint_spec f W L) as (g & r & E & K & RO & Q). rewrite E.
  destruct r as [k|e].
  - eexists _, _. split; [reflexivity|]. split; [exact K|]. split; [apply Q|]. split; [|discriminate].
    intros c X. inversion X. destruct (RO k eq_refl) as (b & t & Y & Z). exists b, t. auto.
  - eexists _, _. split; [reflexivity|]. split; [exact K|]. split; [apply Q|]. split; [discriminate|].
    intros C e' X. inversion X; subst. destruct (Q C) as (_ & Y). apply Y. reflexivity.
Qed.
Lemma getc_eof f : wf f -> rd f = true -> 4 < length (rbuf f) -> calm f -> stream f = [] ->
  exists f', getc f = Done (f', Err Eof) /\ kept f f' /\ calm f'.
Proof.
  intros W R L CA S. unfold getc. rewrite R. cbn [negb].
  destruct (ensurecodepoint_spec f W L) as (g & r & E & K & RO & Q). rewrite E. destruct (Q CA) as (C & X).
  destruct r as [k|e].
  - destruct (RO k eq_refl) as (b & t & Y & _). congruence.
  - destruct (X e eq_refl) as (-> & _). eauto.
Qed.
Lemma peekc_eof f : wf f -> 4 < length (rbuf f) -> calm f -> stream f = [] ->
  exists f', peekc f = Done (f', Err Eof) /\ kept f f' /\ calm f'.
Proof.
  intros W L CA S. unfold peekc.
  destruct (ensurecodepoint_spec f W L) as (g & r & E & K & RO & Q). rewrite E. destruct (Q CA) as (C & X).
  destruct r as [k|e].
  - destruct (RO k eq_refl) as (b & t & Y & _). congruence.
  - destruct (X e eq_refl) as (-> & _). eauto.
Qed.

(* --- read --- *)
Lemma read_loop_spec fuel : forall f got n, wf f -> (n <> 0 -> held f = []) -> n < fuel ->
  exists f' r, read_loop fuel f got n = Done (f', r) /\
    (match r with
     | Ok a => exists s, a = got ++ s /\ length s <= n /\ adv f s f'
     | Err _ => got = [] /\ adv f [] f'
     end) /\
    (calm f -> calm f' /\ r = (match got ++ firstn n (stream f) with [] => Err Eof | l => Ok l end)).
Proof.
  induction fuel as [|fuel IH]; intros f got n W H F; [lia|]. cbn [read_loop].
  assert (A0 : adv f [] f) by (apply kept_adv, kept_refl; exact W).
  destruct n as [|n].
  { eexists _, _. split; [reflexivity|]. cbn [firstn]. rewrite app_nil_r. split.
    - destruct got; [auto|]. exists []. rewrite app_nil_r. auto.
    - intros C. split; [exact C|]. destruct got; reflexivity. }
  specialize (H ltac:(lia)).
  destruct (devread (dv f) (S n)) as [d r] eqn:D. destruct r as [bs|e].
  - destruct (devread_ok _ _ _ _ D) as (R & L & DA).
    assert (A : adv f bs (setdv f d)).
    { unfold adv, stream, held in *. cbn. rewrite H. cbn. split; [exact W|]. rewrite R. auto 12. }
    assert (QU : calm f -> calm (setdv f d) /\ (bs = [] -> stream f = [])).
    { intros [Q1 Q2]. destruct (devread_quiet (dv f) (S n) Q2) as (d2 & bs2 & D2 & Q3 & Q4). rewrite D in D2. injection D2 as E1 E2. subst d2 bs2.
      split; [split; [exact Q1|exact Q3]|]. intros B. destruct (Q4 B) as [Q5|Q5]; [lia|].
      unfold stream. rewrite H, Q5. reflexivity. }
    destruct bs as [|b bs].
    + eexists _, _. split; [reflexivity|]. split.
      { destruct got; [auto|]. exists []. rewrite app_nil_r. split; [reflexivity|]. split; [cbn; lia|exact A]. }
      intros C. destruct (QU C) as (C1 & C2). split; [exact C1|]. rewrite (C2 eq_refl). rewrite firstn_nil, app_nil_r. destruct got; reflexivity.
    + remember (b :: bs) as l eqn:El. assert (1 <= length l) by (subst; cbn; lia).
      destruct (IH (setdv f d) (got ++ l) (S n - length l)) as (f' & r & E & M & Q); [exact W|intros _; exact H|lia|].
      exists f', r. split; [subst l; exact E|]. split.
      { destruct r.
        - destruct M as (s & M1 & M2 & M3). exists (l ++ s). rewrite M1, app_assoc, app_length. split; [reflexivity|].
          split; [lia|]. eapply adv_trans; eauto.
        - destruct M as (M1 & _). destruct got; [|discriminate]. destruct l; [cbn in *; lia|discriminate]. }
      intros C. destruct (QU C) as (C1 & _). destruct (Q C1) as (C2 & ->). split; [exact C2|].
      replace (firstn (S n) (stream f)) with (l ++ firstn (S n - length l) (stream (setdv f d))); [rewrite app_assoc; reflexivity|].
      destruct A as (_ & -> & _). rewrite firstn_app. rewrite (firstn_all2 l) by lia. reflexivity.
  - destruct (devread_err _ _ _ _ D) as (R & DA).
    assert (A : adv f [] (setdv f d)).
    { unfold adv, stream, held in *. cbn. rewrite R. split; [exact W|]. auto 12. }
    assert (NQ : ~ calm f).
    { intros [_ Q]. destruct (devread_quiet (dv f) (S n) Q) as (d2 & bs2 & D2 & _). rewrite D in D2. discriminate. }
    destruct got.
    + eexists _, _. split; [reflexivity|]. split; [auto|]. intros C; contradiction.
    + eexists _, _. split; [reflexivity|]. split; [|intros C; contradiction]. exists []. rewrite app_nil_r. split; [reflexivity|].
      split; [cbn; lia|exact A].
Qed.

Lemma read_spec f n : wf f -> rd f = true ->
  exists f' r, read f n = Done (f', r) /\
    (match r with
     | Ok a => length a <= n /\ adv f a f'
     | Err _ => adv f [] f'
     end) /\
    (calm f -> calm f' /\ r = (match n with O => Ok [] | _ => match firstn n (stream f) with [] => Err Eof | l => Ok l end end)).
Proof.
  intros W R. unfold read. rewrite R. cbn [negb]. destruct (lasterr f =? 0)%N eqn:LE.
  2: { cbn [negb]. eexists _, _. split; [reflexivity|]. split; [apply kept_adv, kept_seterr, kept_refl; exact W|].
       intros [Q _]. apply N.eqb_neq in LE. contradiction. }
  cbn [negb]. destruct n as [|n].
  { eexists _, _. split; [reflexivity|]. split; [|auto]. split; [cbn; lia|]. apply kept_adv, kept_refl; exact W. }
  set (N := S n). assert (N <> 0) by (unfold N; lia).
  match goal with |- context [match ?x with Done _ => _ | Abort => _ | OutOfFuel => _ end] => set (filled := x) end.
  assert (FF : exists g, filled = Done g /\ kept f g /\ (calm f -> calm g)).
  { unfold filled. destruct ((N <? Small) && (rend f - rstart f <? N)) eqn:B; [|exists f; split; [reflexivity|]; split; [apply kept_refl; exact W|auto]].
    apply andb_prop in B. destruct B as [_ B]. apply Nat.ltb_lt in B. rewrite <- held_length in B by exact W.
    destruct (fill_spec f N W B) as (g & r & E & K & _ & Q). rewrite E. exists g. split; [reflexivity|]. split; [exact K|]. intros C; apply (Q C). }
  destruct FF as (g & -> & K & QC). assert (Wg : wf g) by apply K.
  pose proof (held_length g Wg) as HL. rewrite <- HL.
  set (count := Nat.min N (length (held g))). assert (count <= length (held g)) by (unfold count; lia).
  rewrite take_held by (exact Wg || lia).
  set (g1 := setstart g (rstart g + count)).
  assert (A1 : adv g (firstn count (held g)) g1) by (apply adv_setstart; [exact Wg|lia]).
  set (g2 := if rstart g1 =? rend g1 then setr g1 (rbuf g1) 0 0 else g1).
  assert (A2 : adv g1 [] g2 /\ (N - count <> 0 -> held g2 = []) /\ (calm g -> calm g2)).
  { assert (HG : held g1 = skipn count (held g)) by (unfold g1; apply held_setstart; [exact Wg|lia]).
    unfold g2. destruct (rstart g1 =? rend g1) eqn:E.
    - apply Nat.eqb_eq in E. assert (H1 : held g1 = []) by (unfold held; rewrite E; apply slice_empty).
      split; [|split; [intros _; apply slice_empty|auto]].
      unfold adv, stream. rewrite H1. unfold held at 1. cbn. split; [unfold wf; cbn; lia|]. rewrite slice_empty. auto 12.
    - split; [apply kept_adv, kept_refl; apply A1|]. split; [|auto]. intros X. rewrite HG. apply skipn_all2. unfold count in *. lia. }
  destruct A2 as (A2 & H2 & C2).
  destruct (read_loop_spec (S (N - count)) g2 (firstn count (held g)) (N - count)) as (f' & r & E & M & Q);
    [apply A2|exact H2|lia|].
  exists f', r. split; [exact E|].
  assert (A3 : adv f (firstn count (held g)) g2).
  { eapply kept_adv_trans; [exact K|]. pose proof (adv_trans _ _ _ _ _ A1 A2) as X. rewrite app_nil_r in X. exact X. }
  split.
  - destruct r.
    + destruct M as (s & M1 & M2 & M3). subst a. split; [rewrite app_length, firstn_length; lia|]. eapply adv_trans; eauto.
    + destruct M as (M1 & M2). rewrite M1 in A3. exact (adv_trans _ _ _ _ _ A3 M2).
  - intros C. destruct (Q (C2 (QC C))) as (C' & ->). split; [exact C'|].
    replace (firstn N (stream f)) with (firstn count (held g) ++ firstn (N - count) (stream g2)); [reflexivity|].
    destruct A3 as (_ & -> & _). rewrite firstn_app, firstn_firstn. rewrite firstn_length.
    replace (Nat.min N count) with count by (unfold count; lia). replace (Nat.min count (length (held g))) with count by lia. reflexivity.
Qed.
