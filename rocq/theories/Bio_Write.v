(* Writing: what reaches the device, on any device and on one without faults. *)
From Verif Require Import Base ListX Utf_Model Utf_Spec Utf_Proofs Bio_Model Bio_Spec Bio_Calls Bio_Proofs Bio_Reads.
From Coq Require Import NArith Lia List.
Import ListNotations.
Open Scope nat_scope.

Definition putat (old : list N) (p : nat) (s : list N) : list N := match s with [] => old | _ => overwrite old p s end.
Lemma overwrite_nth f p s i : s <> [] ->
  nth_error (overwrite f p s) i =
    if i <? p then (if i <? length f then nth_error f i else Some 0%N)
    else if i <? p + length s then nth_error s (i - p) else nth_error f i.
Proof.
  intros NE. unfold overwrite.
  assert (LP : length (firstn p (f ++ repeat 0%N (p - length f))) = p) by (rewrite firstn_length, app_length, repeat_length; lia).
  destruct (Nat.ltb_spec i p) as [H|H].
  - rewrite nth_error_app1 by lia. rewrite ListX.nth_error_firstn. replace (i <? p) with true by (symmetry; apply Nat.ltb_lt; lia).
    destruct (Nat.ltb_spec i (length f)) as [H1|H1].
    + apply nth_error_app1. lia.
    + rewrite nth_error_app2 by lia. apply nth_error_repeat. lia.
  - rewrite nth_error_app2, LP by lia. destruct (Nat.ltb_spec i (p + length s)) as [H1|H1].
    + apply nth_error_app1. lia.
    + rewrite nth_error_app2 by lia. rewrite ListX.nth_error_skipn. f_equal. lia.
Qed.
Lemma overwrite_length f p s : length (overwrite f p s) = Nat.max (length f) (p + length s).
Proof. unfold overwrite. rewrite !app_length, firstn_length, app_length, repeat_length, skipn_length. lia. Qed.
Lemma putat_holds old p s : holds old p s (putat old p s).
Proof.
  destruct s as [|x s]; cbn [putat].
  - unfold holds. cbn. repeat split; intros; try lia; congruence.
  - set (t := x :: s). assert (NE : t <> []) by discriminate. unfold holds. repeat split.
    + intros i H. rewrite overwrite_nth by exact NE. replace (p + i <? p) with false by (symmetry; apply Nat.ltb_ge; lia).
      replace (p + i <? p + length t) with true by (symmetry; apply Nat.ltb_lt; lia). f_equal. lia.
    + intros i H D. rewrite overwrite_nth by exact NE. destruct (Nat.ltb_spec i p) as [H1|H1].
      * replace (i <? length old) with true by (symmetry; apply Nat.ltb_lt; lia). reflexivity.
      * replace (i <? p + length t) with false by (symmetry; apply Nat.ltb_ge; lia). reflexivity.
    + intros i H _. rewrite overwrite_nth by exact NE. replace (i <? p) with true by (symmetry; apply Nat.ltb_lt; lia).
      replace (i <? length old) with false by (symmetry; apply Nat.ltb_ge; lia). reflexivity.
    + apply overwrite_length.
Qed.
Lemma putat_app old p s t : putat (putat old p s) (p + length s) t = putat old p (s ++ t).
Proof.
  destruct s as [|x s]; [cbn; rewrite Nat.add_0_r; reflexivity|]. destruct t as [|y t]; [rewrite app_nil_r; reflexivity|].
  cbn [app putat]. set (a := x :: s). set (b := y :: t). change (x :: s ++ b) with (a ++ b).
  assert (NA : a <> []) by discriminate. assert (NB : b <> []) by discriminate.
  assert (NAB : a ++ b <> []) by discriminate.
  apply nth_error_ext. intros i. rewrite !overwrite_nth, overwrite_length, app_length by assumption.
  destruct (Nat.ltb_spec i p) as [H1|H1].
  - replace (i <? p + length a) with true by (symmetry; apply Nat.ltb_lt; lia).
    replace (i <? Nat.max (length old) (p + length a)) with true by (symmetry; apply Nat.ltb_lt; lia). reflexivity.
  - destruct (Nat.ltb_spec i (p + length a)) as [H2|H2].
    + replace (i <? Nat.max (length old) (p + length a)) with true by (symmetry; apply Nat.ltb_lt; lia).
      replace (i <? p + (length a + length b)) with true by (symmetry; apply Nat.ltb_lt; lia).
      rewrite nth_error_app1 by lia. reflexivity.
    + rewrite nth_error_app2 by lia. rewrite Nat.add_assoc. destruct (i <? p + length a + length b); [f_equal; lia|reflexivity].
Qed.

(* --- the device --- *)
Lemma devwrite_spec d src : exists k, k <= length src /\
  data (fst (devwrite d src)) = putat (data d) (pos d) (firstn k src) /\ pos (fst (devwrite d src)) = pos d + k /\
  (forall n, snd (devwrite d src) = SysOk n -> n = k) /\
  (quiet d -> quiet (fst (devwrite d src)) /\ snd (devwrite d src) = SysOk k /\ (src <> [] -> k <> 0)).
Proof.
  unfold devwrite. destruct (events d) as [|[k|e] es] eqn:EV; cbn [fst snd data pos].
  - exists (length src). rewrite firstn_all. split; [lia|]. split; [reflexivity|]. split; [reflexivity|]. split; [congruence|].
    intros Q. split; [constructor|]. split; [reflexivity|]. destruct src; cbn; congruence.
  - exists (length (firstn k src)). assert (X : firstn (length (firstn k src)) src = firstn k src).
    { rewrite firstn_length. destruct (Nat.le_gt_cases k (length src)); [rewrite Nat.min_l by lia; reflexivity|].
      rewrite Nat.min_r by lia. rewrite !firstn_all2 by lia. reflexivity. }
    rewrite X. split; [rewrite firstn_length; lia|]. split; [reflexivity|]. split; [reflexivity|]. split; [congruence|].
    unfold quiet. rewrite EV. intros Q. inversion Q as [|? ? (k' & K) Q']; subst. split; [exact Q'|]. split; [reflexivity|].
    injection K as ->. destruct src; cbn; congruence.
  - exists 0. cbn [firstn putat]. split; [lia|]. split; [reflexivity|]. split; [lia|]. split; [discriminate|].
    unfold quiet. rewrite EV. intros Q. inversion Q as [|? ? (k' & K) Q']; discriminate.
Qed.
Lemma writebuf_loop_spec fuel : forall d src c, length src < fuel ->
  exists d' r k, writebuf_loop fuel d src c = Done (d', r) /\ k <= length src /\
    data d' = putat (data d) (pos d) (firstn k src) /\ pos d' = pos d + k /\
    (forall n, r = Ok n -> k = length src /\ n = c + length src) /\
    (quiet d -> quiet d' /\ exists n, r = Ok n).
Proof.
  induction fuel as [|fuel IH]; intros d src c F; [lia|]. cbn [writebuf_loop]. destruct src as [|x src].
  { exists d, (Ok c), 0. cbn. split; [reflexivity|]. split; [lia|]. split; [reflexivity|]. split; [lia|]. split; [intros n X; injection X as ->; lia|]. intros Q. split; eauto. }
  destruct (devwrite_spec d (x :: src)) as (k & K1 & K2 & K3 & K4 & K5).
  destruct (devwrite d (x :: src)) as [d1 r1]. cbn [fst snd] in *. destruct r1 as [n|e].
  - specialize (K4 n eq_refl). subst n. destruct k as [|k].
    + exists d1, (Err Eof), 0. split; [reflexivity|]. split; [lia|]. split; [exact K2|]. split; [exact K3|]. split; [discriminate|].
      intros Q. destruct (K5 Q) as (_ & _ & X). exfalso. apply X; congruence.
    + destruct (IH d1 (skipn (S k) (x :: src)) (c + S k)) as (d' & r & k' & E & B1 & B2 & B3 & B4 & B5); [rewrite skipn_length; cbn [length] in *; lia|].
      rewrite skipn_length in B1, B4. exists d', r, (S k + k'). split; [exact E|]. split; [lia|]. split; [|split; [lia|split]].
      * rewrite B2, K2, K3. pose proof (putat_app (data d) (pos d) (firstn (S k) (x :: src)) (firstn k' (skipn (S k) (x :: src)))) as PA.
        rewrite firstn_length, Nat.min_l in PA by lia. rewrite PA. rewrite <- firstn_plus. reflexivity.
      * intros n X. destruct (B4 n X) as (Y1 & Y2). lia.
      * intros Q. apply B5. apply K5, Q.
  - exists d1, (Err (errtype e)), k. split; [reflexivity|]. split; [lia|]. split; [exact K2|]. split; [exact K3|]. split; [discriminate|].
    intros Q. destruct (K5 Q) as (_ & X & _). discriminate.
Qed.

(* --- the file --- *)
(* s is what the calls so far were to put into the file from offset p on *)
Definition writer (f : file) (old : list N) (p : nat) (s : list N) : Prop :=
  wr f = true /\ length (wbuf f) = Bufsz /\ wend f <= Bufsz /\
  exists s1, data (dv f) = putat old p s1 /\ pos (dv f) = p + length s1 /\ s = s1 ++ firstn (wend f) (wbuf f).
(* what the writing calls leave alone *)
Definition rsame (f f' : file) : Prop :=
  rd f' = rd f /\ lasterr f' = lasterr f /\ rbuf f' = rbuf f /\ rstart f' = rstart f /\ rend f' = rend f.
Lemma rsame_refl f : rsame f f. Proof. unfold rsame. auto. Qed.
Lemma rsame_trans f g h : rsame f g -> rsame g h -> rsame f h.
Proof. unfold rsame. intuition congruence. Qed.

(* flush and the flush inside ensurewrite *)
Lemma writebuf_all f old p s f' n : writer f old p s -> writebuf f (firstn (wend f) (wbuf f)) = Done (f', Ok n) ->
  writer (setw f' (wbuf f') 0) old p s /\ rsame f f' /\ n = wend f /\ wbuf f' = wbuf f.
Proof.
  intros (W1 & W2 & W3 & s1 & D1 & D2 & D3) E. unfold writebuf in E.
  destruct (writebuf_loop_spec (S (length (firstn (wend f) (wbuf f)))) (dv f) (firstn (wend f) (wbuf f)) 0) as (d & r & k & E1 & K1 & K2 & K3 & K4 & K5); [lia|].
  rewrite E1 in E. injection E as <- ->. destruct (K4 n eq_refl) as (-> & ->). rewrite firstn_all in K2.
  cbn [setdv setw wbuf]. split; [|split; [solve [unfold rsame; cbn; auto]|split; [rewrite firstn_length; lia|reflexivity]]].
  unfold writer. cbn. split; [exact W1|]. split; [exact W2|]. split; [lia|].
  exists s. rewrite app_nil_r. split; [|split; [|reflexivity]].
  - rewrite K2, D1, D2, D3. apply putat_app.
  - rewrite K3, D2, D3, app_length. lia.
Qed.
Lemma writebuf_quiet f src : quiet (dv f) -> exists f' n, writebuf f src = Done (f', Ok n) /\ quiet (dv f').
Proof.
  intros Q. unfold writebuf. destruct (writebuf_loop_spec (S (length src)) (dv f) src 0) as (d & r & k & E1 & K1 & K2 & K3 & K4 & K5); [lia|].
  rewrite E1. destruct (K5 Q) as (Q' & n & ->). exists (setdv f d), n. auto.
Qed.
Lemma writebuf_total f src : exists f' r, writebuf f src = Done (f', r) /\ rsame f f' /\ wr f' = wr f /\ wbuf f' = wbuf f /\ wend f' = wend f.
Proof.
  unfold writebuf. destruct (writebuf_loop_spec (S (length src)) (dv f) src 0) as (d & r & k & E1 & _); [lia|].
  rewrite E1. exists (setdv f d), r. split; [reflexivity|]. split; [solve [unfold rsame; cbn; auto]|]. auto.
Qed.
(* the result of a writing call that put bytes into the file: on success it did, on a quiet device it succeeds *)
Definition wrote (f : file) (old : list N) (p : nat) (s : list N) (o : outcome (file * bool)) : Prop :=
  exists f' b, o = Done (f', b) /\ rsame f f' /\ (b = true -> writer f' old p s) /\ (quiet (dv f) -> quiet (dv f') /\ b = true).
Lemma flush_spec f old p s : writer f old p s -> wrote f old p s (flush f).
Proof.
  intros W. pose proof W as (W1 & _). unfold wrote, flush. rewrite W1.
  destruct (writebuf_total f (firstn (wend f) (wbuf f))) as (f' & r & E & RS & X1 & X2 & X3). rewrite E. destruct r as [n|e].
  - destruct (writebuf_all _ _ _ _ _ _ W E) as (WF & _ & -> & _). rewrite Nat.eqb_refl. eexists _, _. split; [reflexivity|].
    split; [exact RS|]. split; [auto|]. intros Q. destruct (writebuf_quiet f (firstn (wend f) (wbuf f)) Q) as (g & m & E' & Q').
    rewrite E in E'. injection E' as <- <-. split; [exact Q'|reflexivity].
  - eexists _, _. split; [reflexivity|]. split; [exact RS|]. split; [discriminate|]. intros Q.
    destruct (writebuf_quiet f (firstn (wend f) (wbuf f)) Q) as (g & m & E' & Q'). rewrite E in E'. discriminate.
Qed.
Lemma flush_wend f old p s f' : writer f old p s -> flush f = Done (f', true) -> wend f' = 0.
Proof.
  intros (W1 & _) E. unfold flush in E. rewrite W1 in E. destruct (writebuf f _) as [[g [n|e]]| |]; try discriminate; injection E as <- _; reflexivity.
Qed.
Lemma ensurewrite_spec f old p s n : writer f old p s -> n < Bufsz ->
  exists f' r, ensurewrite f n = Done (f', r) /\ rsame f f' /\ wr f' = true /\
    (forall k, r = Ok k -> writer f' old p s /\ wend f' + n <= Bufsz) /\ (quiet (dv f) -> quiet (dv f') /\ exists k, r = Ok k).
Proof.
  intros W L. pose proof W as (W1 & W2 & W3 & _). unfold ensurewrite. rewrite W2.
  replace (n <? Bufsz) with true by (symmetry; apply Nat.ltb_lt; lia). destruct (Nat.ltb_spec (Bufsz - wend f) n) as [H|H].
  - destruct (writebuf_total f (firstn (wend f) (wbuf f))) as (f' & r & E & RS & X1 & X2 & X3). rewrite E. destruct r as [m|e].
    + destruct (writebuf_all _ _ _ _ _ _ W E) as (WF & _ & -> & _). eexists _, _. split; [reflexivity|]. split; [exact RS|]. split; [cbn; congruence|].
      split; [intros k _; split; [exact WF|cbn; lia]|]. intros Q. destruct (writebuf_quiet f (firstn (wend f) (wbuf f)) Q) as (g & m & E' & Q').
      rewrite E in E'. injection E' as <- <-. split; [exact Q'|eauto].
    + eexists _, _. split; [reflexivity|]. split; [exact RS|]. split; [congruence|]. split; [discriminate|]. intros Q.
      destruct (writebuf_quiet f (firstn (wend f) (wbuf f)) Q) as (g & m & E' & Q'). rewrite E in E'. discriminate.
  - exists f, (Ok n). split; [reflexivity|]. split; [solve [unfold rsame; cbn; auto]|]. split; [exact W1|]. split; [intros k _; split; [exact W|lia]|]. intros Q. split; eauto.
Qed.
(* putting t behind the bytes in the buffer *)
Lemma writer_put f old p s t b : writer f old p s -> wend f + length t <= Bufsz -> length b = Bufsz ->
  firstn (wend f + length t) b = firstn (wend f) (wbuf f) ++ t -> writer (setw f b (wend f + length t)) old p (s ++ t).
Proof.
  intros (W1 & W2 & W3 & s1 & D1 & D2 & D3) L LB F. unfold writer. cbn. split; [exact W1|]. split; [exact LB|]. split; [lia|].
  exists s1. split; [exact D1|]. split; [exact D2|]. rewrite F, D3, app_assoc. reflexivity.
Qed.
Lemma firstn_blit b i t : i + length t <= length b -> firstn (i + length t) (blit b i t) = firstn i b ++ t.
Proof.
  intros L. unfold blit. rewrite app_assoc. rewrite firstn_app. rewrite app_length, firstn_length, Nat.min_l by lia.
  rewrite Nat.sub_diag. cbn [firstn]. rewrite app_nil_r. apply firstn_all2. rewrite app_length, firstn_length. lia.
Qed.
Lemma write_small f old p s t : writer f old p s -> wend f + length t <= Bufsz ->
  exists f', write f t = Done (f', Ok (length t)) /\ rsame f f' /\ writer f' old p (s ++ t) /\ dv f' = dv f.
Proof.
  intros W L. pose proof W as (W1 & W2 & W3 & _). unfold write. rewrite W1, W2. cbn [negb].
  replace (length t <=? Bufsz - wend f) with true by (symmetry; apply Nat.leb_le; lia).
  eexists. split; [reflexivity|]. split; [solve [unfold rsame; cbn; auto]|]. split; [|reflexivity].
  apply writer_put; auto; [rewrite blit_length by lia; exact W2|]. apply firstn_blit. lia.
Qed.
(* write on a quiet device *)
Lemma write_quiet f old p s t : writer f old p s -> quiet (dv f) ->
  exists f' n, write f t = Done (f', Ok n) /\ rsame f f' /\ writer f' old p (s ++ t) /\ quiet (dv f').
Proof.
  intros W Q. pose proof W as (W1 & W2 & W3 & _). destruct (Nat.le_gt_cases (wend f + length t) Bufsz) as [L|L].
  - destruct (write_small f old p s t W L) as (f' & E & RS & WF & D). exists f', (length t). rewrite D. auto.
  - unfold write. rewrite W1, W2. cbn [negb]. replace (length t <=? Bufsz - wend f) with false by (symmetry; apply Nat.leb_gt; lia).
    destruct (flush_spec f old p s W) as (g & b & E & RS & WG & QG). destruct (QG Q) as (QQ & ->). specialize (WG eq_refl).
    pose proof (flush_wend f old p s g W E) as Z. rewrite E. unfold writebuf.
    destruct (writebuf_loop_spec (S (length t)) (dv g) t 0) as (d & r & k & E1 & K1 & K2 & K3 & K4 & K5); [lia|].
    rewrite E1. destruct (K5 QQ) as (Q' & n & ->). destruct (K4 n eq_refl) as (-> & ->). rewrite firstn_all in K2.
    exists (setdv g d), (0 + length t). split; [reflexivity|]. split; [exact RS|]. split; [|exact Q'].
    destruct WG as (V1 & V2 & V3 & s1 & D1 & D2 & D3). rewrite Z in D3. cbn in D3. rewrite app_nil_r in D3. subst s1.
    unfold writer. cbn. split; [exact V1|]. split; [exact V2|]. split; [exact V3|]. exists (s ++ t). rewrite Z. cbn [firstn]. rewrite app_nil_r.
    split; [rewrite K2, D1, D2; apply putat_app|]. split; [rewrite K3, D2, app_length; lia|reflexivity].
Qed.
Lemma putb_spec f old p s b : writer f old p s -> wrote f old p (s ++ [b]) (okr (putb f b)).
Proof.
  intros W. pose proof W as (W1 & _). unfold putb. rewrite W1. cbn [negb].
  destruct (ensurewrite_spec f old p s 1 W ltac:(pose proof Bufsz_big; lia)) as (g & r & E & RS & WR & K & Q). rewrite E. destruct r as [k|e].
  - destruct (K k eq_refl) as (WG & L). eexists _, true. split; [reflexivity|]. split; [exact RS|]. split.
    + intros _. replace (S (wend g)) with (wend g + length [b]) by (cbn; lia). pose proof WG as (_ & V2 & V3 & _).
      apply writer_put; auto; [rewrite upd_length; exact V2|].
      cbn [length]. apply nth_error_ext. intros i. rewrite ListX.nth_error_firstn.
      destruct (Nat.ltb_spec i (wend g + 1)) as [H|H].
      * destruct (Nat.eq_dec i (wend g)) as [->|NE].
        -- rewrite nth_error_upd, Nat.eqb_refl. replace (wend g <? length (wbuf g)) with true by (symmetry; apply Nat.ltb_lt; lia). rewrite nth_error_app2 by (rewrite firstn_length; lia).
           rewrite firstn_length, Nat.min_l, Nat.sub_diag by lia. reflexivity.
        -- rewrite nth_error_upd. replace (wend g =? i) with false by (symmetry; apply Nat.eqb_neq; lia). cbn [andb]. rewrite nth_error_app1 by (rewrite firstn_length; lia). rewrite ListX.nth_error_firstn.
           replace (i <? wend g) with true by (symmetry; apply Nat.ltb_lt; lia). reflexivity.
      * symmetry. apply nth_error_None. rewrite app_length, firstn_length. cbn. lia.
    + intros QD. split; [|reflexivity]. destruct (Q QD) as (QG & _). exact QG.
  - eexists _, false. split; [reflexivity|]. split; [exact RS|]. split; [discriminate|]. intros QD. destruct (Q QD) as (_ & k & X). discriminate.
Qed.
Lemma putc_spec f old p s c : writer f old p s -> (c < 0x200000)%N -> wrote f old p (s ++ utf8 c) (okr (putc f c)).
Proof.
  intros W C. pose proof W as (W1 & _). unfold putc. rewrite W1. cbn [negb]. rewrite (charlen_utf8 c C).
  assert (L4 : length (utf8 c) <= 4) by (unfold utf8; repeat match goal with |- context [(?a <? ?b)%N] => destruct (N.ltb_spec a b) end; cbn; lia).
  destruct (ensurewrite_spec f old p s (length (utf8 c)) W ltac:(pose proof Bufsz_big; lia)) as (g & r & E & RS & WR & K & Q). rewrite E. destruct r as [k|e].
  - destruct (K k eq_refl) as (WG & L). eexists _, true. split; [reflexivity|]. split; [exact RS|]. split.
    + intros _. pose proof WG as (_ & V2 & V3 & _).
      pose proof (encode_spec (skipn (wend g) (wbuf g)) c C) as ES. rewrite charlen_utf8, skipn_length in ES by exact C.
      rewrite ES by lia. cbn [snd].
      assert (LB : length (firstn (wend g) (wbuf g)) = wend g) by (rewrite firstn_length; lia).
      apply writer_put; auto.
      * rewrite !app_length, LB, !skipn_length. lia.
      * rewrite app_assoc. rewrite firstn_app, app_length, LB, Nat.sub_diag. cbn [firstn]. rewrite app_nil_r.
        apply firstn_all2. rewrite app_length. lia.
    + intros QD. split; [|reflexivity]. destruct (Q QD) as (QG & _). exact QG.
  - eexists _, false. split; [reflexivity|]. split; [exact RS|]. split; [discriminate|]. intros QD. destruct (Q QD) as (_ & k & X). discriminate.
Qed.

(* --- integers --- *)
Lemma byteat_le v k : byteat v (8 * N.of_nat k) = ((v / 256 ^ N.of_nat k) mod 256)%N.
Proof. unfold byteat. change 0xff%N with (N.ones 8). rewrite N.land_ones, N.shiftr_div_pow2, N.pow_mul_r. reflexivity. Qed.
Lemma le_bytes_map n : forall v j, map (fun k => byteat v (8 * N.of_nat k)) (seq j n) = le_bytes n (v / 256 ^ N.of_nat j).
Proof.
  induction n as [|n IH]; intros v j; [reflexivity|]. cbn [seq map le_bytes]. f_equal; [apply byteat_le|].
  rewrite IH. f_equal. rewrite N.div_div by (try apply N.pow_nonzero; discriminate). f_equal.
  rewrite Nat2N.inj_succ, N.pow_succ_r'. apply N.mul_comm.
Qed.
Lemma putle_bytes v n : n <= 8 -> firstn n (map (byteat v) [0; 8; 16; 24; 32; 40; 48; 56]%N) = le_bytes n v.
Proof.
  intros L. pose proof (le_bytes_map n v 0) as H. change (256 ^ N.of_nat 0)%N with 1%N in H. rewrite N.div_1_r in H. rewrite <- H.
  do 9 (destruct n as [|n]; [reflexivity|]). lia.
Qed.
Lemma putbe_bytes v n : n <= 8 -> skipn (8 - n) (map (byteat v) [56; 48; 40; 32; 24; 16; 8; 0]%N) = rev (le_bytes n v).
Proof.
  intros L. rewrite <- putle_bytes by exact L. do 9 (destruct n as [|n]; [reflexivity|]). lia.
Qed.
Lemma le_bytes_length n : forall v, length (le_bytes n v) = n.
Proof. induction n; intros v; cbn; auto. Qed.
Lemma puti_spec f old p s n t : writer f old p s -> n <= 8 -> length t = n ->
  wrote f old p (s ++ t) (okr (match ensurewrite f n with
                               | Done (f, Ok _) => write f t
                               | Done (f, Err e) => Done (f, Err e)
                               | Abort => Abort
                               | OutOfFuel => OutOfFuel
                               end)).
Proof.
  intros W L LT. destruct (ensurewrite_spec f old p s n W ltac:(pose proof Bufsz_big; lia)) as (g & r & E & RS & WR & K & Q). rewrite E. destruct r as [k|e].
  - destruct (K k eq_refl) as (WG & LG). destruct (write_small g old p s t WG ltac:(lia)) as (f' & E' & RS' & WF & D). rewrite E'. cbn [okr].
    eexists _, true. split; [reflexivity|]. split; [eapply rsame_trans; eassumption|]. split; [auto|]. intros QD. rewrite D. split; [apply Q, QD|reflexivity].
  - eexists _, false. split; [reflexivity|]. split; [exact RS|]. split; [discriminate|]. intros QD. destruct (Q QD) as (_ & k & X). discriminate.
Qed.
Lemma put_wrote f old p s o : writer f old p s -> wop_ok o -> (forall t, o <> OWrite t) -> wrote f old p (s ++ bytes_of o) (put f o).
Proof.
  intros W O NW. destruct o; cbn [put bytes_of wop_ok] in *.
  - exfalso. eapply NW. reflexivity.
  - apply putb_spec, W.
  - apply putc_spec; assumption.
  - unfold putle. rewrite putle_bytes by apply O. apply puti_spec; [exact W|apply O|apply le_bytes_length].
  - unfold putbe. rewrite putbe_bytes by apply O. apply puti_spec; [exact W|apply O|rewrite rev_length; apply le_bytes_length].
  - rewrite app_nil_r. apply flush_spec, W.
Qed.
Lemma put_quiet f old p s o : writer f old p s -> wop_ok o -> quiet (dv f) ->
  exists f', put f o = Done (f', true) /\ rsame f f' /\ writer f' old p (s ++ bytes_of o) /\ quiet (dv f').
Proof.
  intros W O Q. assert (D : (exists t, o = OWrite t) \/ forall t, o <> OWrite t) by (destruct o; [left; eauto|right; discriminate..]).
  destruct D as [(t & ->)|NW].
  - cbn [put]. destruct (write_quiet f old p s t W Q) as (f' & n & E & RS & WF & Q'). rewrite E. exists f'. auto.
  - destruct (put_wrote f old p s o W O NW) as (f' & b & E & RS & WF & QF). destruct (QF Q) as (Q' & ->). exists f'. auto.
Qed.
Lemma puts_quiet os : forall f old p s, writer f old p s -> Forall wop_ok os -> quiet (dv f) ->
  exists f', puts f os = Done (f', map (fun _ => true) os) /\ rsame f f' /\ writer f' old p (s ++ concat (map bytes_of os)) /\ quiet (dv f').
Proof.
  induction os as [|o os IH]; intros f old p s W O Q; cbn [puts map concat].
  - exists f. rewrite app_nil_r. auto using rsame_refl.
  - inversion O; subst. destruct (put_quiet f old p s o) as (g & E & RS & WG & QG); auto. rewrite E.
    destruct (IH g old p (s ++ bytes_of o)) as (f' & E' & RS' & WF & QF); auto. rewrite E'. exists f'. split; [reflexivity|].
    split; [eapply rsame_trans; eassumption|]. rewrite <- app_assoc in WF. auto.
Qed.
Lemma close_spec f old p s : writer f old p s ->
  exists d b, close f = Done (d, b) /\ (b = true -> data d = putat old p s) /\ (quiet (dv f) -> b = true).
Proof.
  intros W. unfold close. destruct (flush_spec f old p s W) as (g & b & E & RS & WG & QG). rewrite E. destruct b.
  - specialize (WG eq_refl). pose proof (flush_wend f old p s g W E) as Z. destruct WG as (V1 & V2 & V3 & s1 & D1 & D2 & D3).
    rewrite Z in D3. cbn in D3. rewrite app_nil_r in D3. subst s1.
    exists (fst (devclose (dv g))), (snd (devclose (dv g))). destruct (devclose (dv g)) as [d b] eqn:DC. split; [reflexivity|]. cbn [fst snd].
    unfold devclose in DC. split.
    + intros _. destruct (events (dv g)) as [|[]]; injection DC as <- _; exact D1.
    + intros Q. destruct (QG Q) as (QQ & _). unfold quiet in QQ. destruct (events (dv g)) as [|[k|e] es]; injection DC as _ <-; auto.
      inversion QQ as [|? ? (k & K) ?]; discriminate.
  - eexists _, _. split; [reflexivity|]. split; [discriminate|]. intros Q. destruct (QG Q) as (_ & X). discriminate.
Qed.
(* any device: calls other than write that all report success *)
Lemma puts_any os : forall f old p s, writer f old p s -> Forall wop_ok os -> Forall (fun o => forall t, o <> OWrite t) os ->
  forall f' ans, puts f os = Done (f', ans) -> Forall (fun b => b = true) ans -> writer f' old p (s ++ concat (map bytes_of os)).
Proof.
  induction os as [|o os IH]; intros f old p s W O NW f' ans E A; cbn [puts map concat] in *.
  - injection E as <- <-. rewrite app_nil_r. exact W.
  - inversion O; inversion NW; subst. destruct (put_wrote f old p s o) as (g & b & EG & RS & WG & _); auto. rewrite EG in E.
    destruct (puts g os) as [[h l]| |] eqn:EP; try discriminate. injection E as <- <-. inversion A; subst. specialize (WG eq_refl).
    rewrite app_assoc. eapply IH; eauto.
Qed.
Lemma mk_writer r dt p evs : writer (mk r true (mkdev dt p evs)) dt p [].
Proof.
  unfold writer, mk. cbn. rewrite repeat_length. split; [reflexivity|]. split; [reflexivity|]. split; [lia|]. exists []. cbn.
  split; [reflexivity|]. split; [lia|]. destruct (repeat 0%N Bufsz); reflexivity.
Qed.
