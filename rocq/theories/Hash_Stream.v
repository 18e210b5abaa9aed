(* Adding a message in pieces and padding it, whatever the step function (for Hash_Props). *)
From Verif Require Import Base ListX Hash_Spec Hash_Model.
From Coq Require Import NArith.
Open Scope nat_scope.
Lemma chunks_app : forall {A} B k (a b : list A), 0 < B -> length a = k * B -> chunks B (a ++ b) = chunks B a ++ chunks B b.
Proof.
  intros A B k a b HB L. unfold chunks. rewrite app_length, L, Nat.div_add_l, Nat.div_mul by lia. rewrite seq_app, map_app. f_equal.
  - apply map_ext_in. intros i Hi. apply in_seq in Hi. rewrite skipn_app. rewrite firstn_app.
    replace (B - length (skipn (i * B) a)) with 0 by (rewrite skipn_length, L; nia). rewrite firstn_O, app_nil_r. reflexivity.
  - replace (0 + k) with (k + 0) by lia. generalize (length b / B). intros n. generalize 0. induction n as [ | n IH]; intros s; cbn [seq map]; [ reflexivity | ].
    f_equal.
    + f_equal. rewrite skipn_app. rewrite (skipn_all2 a) by (rewrite L; nia). cbn [app]. f_equal. rewrite L. nia.
    + replace (S (k + s)) with (k + S s) by lia. apply IH.
Qed.
Lemma chunks_one : forall {A} B (a : list A), 0 < B -> length a = B -> chunks B a = [a].
Proof.
  intros A B a HB L. unfold chunks. rewrite L, Nat.div_same by lia. cbn [seq map]. cbn [Nat.mul skipn]. rewrite <- L, firstn_all. reflexivity.
Qed.
Lemma chunks_nil : forall {A} B, chunks B (@nil A) = [].
Proof. intros A B. unfold chunks. cbn [length]. destruct B; reflexivity. Qed.
Lemma chunks_short : forall {A} B (a : list A), length a < B -> chunks B a = [].
Proof. intros A B a L. unfold chunks. rewrite Nat.div_small by lia. reflexivity. Qed.
Lemma chunks_forall : forall (B : nat) (p : list N), 0 < B -> Forall is_byte p -> Forall (fun c => Forall is_byte c /\ length c = B) (chunks B p).
Proof.
  intros B p HB F. unfold chunks. apply Forall_forall. intros c Hc. apply in_map_iff in Hc. destruct Hc as (i & <- & Hi). apply in_seq in Hi.
  assert (i * B + B <= length p) by (pose proof (Nat.div_mod (length p) B); nia). split.
  - rewrite Forall_forall in F |- *. intros v Hv. apply F. rewrite <- (firstn_skipn (i * B) p). apply in_or_app. right.
    rewrite <- (firstn_skipn B (skipn (i * B) p)). apply in_or_app. left. exact Hv.
  - rewrite firstn_length, skipn_length. lia.
Qed.
Lemma blocks_ok : forall {X} (step : X -> list N -> X) B fuel x data, 0 < B -> length data <= fuel ->
  exists c r k, data = c ++ r /\ length c = k * B /\ length r < B /\ blocks B step fuel x data = Some (fold_left step (chunks B c) x, r).
Proof.
  intros X step B fuel. induction fuel as [ | fuel IH]; intros x data HB L; cbn [blocks]; destruct (Nat.leb_spec B (length data)) as [G | G].
  - lia.
  - exists [], data, 0. rewrite chunks_nil. repeat split; try reflexivity; assumption.
  - destruct (IH (step x (firstn B data)) (skipn B data) HB) as (c & r & k & E & Lc & Lr & Eb). { rewrite skipn_length. lia. }
    exists (firstn B data ++ c), r, (S k). rewrite <- app_assoc, <- E, firstn_skipn.
    assert (L1 : length (firstn B data) = 1 * B) by (rewrite firstn_length; lia).
    repeat split; try assumption. { rewrite app_length. lia. }
    rewrite (chunks_app B 1) by assumption. rewrite chunks_one by lia. exact Eb.
  - exists [], data, 0. rewrite chunks_nil. repeat split; try reflexivity; assumption.
Qed.
(* the state after the message m *)
Definition Inv {X} (B : nat) (step : X -> list N -> X) (x0 : X) (st : hst X) (m : list N) : Prop :=
  exists c r j k, m = c ++ r /\ length c = k * B /\ length r < B /\ x st = fold_left step (chunks B c) x0 /\ tail st = r ++ j
    /\ length (tail st) = B /\ msglen st = N.of_nat (length m) /\ (msglen st < 2 ^ 61)%N.
Lemma Inv_init : forall {X} B step (x0 : X) st, 0 < B -> length (tail st) = B -> Inv B step x0 (hinit x0 st) [].
Proof. intros X B step x0 st HB L. exists [], [], (tail st), 0. rewrite chunks_nil. repeat split; try assumption; try reflexivity. Qed.
Lemma ntail_eq : forall B k c (r : list N), 0 < B -> length c = k * B -> length r < B ->
  N.to_nat (N.of_nat (length (c ++ r)) mod N.of_nat B) = length r.
Proof.
  intros B k c r HB L R. rewrite <- Nat2N.inj_mod, Nat2N.id, app_length, L, Nat.add_comm, Nat.mod_add, Nat.mod_small by lia. reflexivity.
Qed.
Lemma slcp_0 : forall t s, length s <= length t -> slcp t 0 (length s) s = Some (s ++ skipn (length s) t).
Proof.
  intros t s H. unfold slcp. rewrite Nat.sub_0_r, Nat.eqb_refl, andb_true_r. cbn [Nat.leb andb firstn app].
  rewrite (proj2 (Nat.leb_le _ _) H). reflexivity.
Qed.
Lemma slcp_mid : forall r j s, length s <= length j -> slcp (r ++ j) (length r) (length r + length s) s = Some (r ++ s ++ skipn (length s) j).
Proof.
  intros r j s H. unfold slcp. rewrite app_length.
  rewrite (proj2 (Nat.leb_le (length r) _)) by lia. rewrite (proj2 (Nat.leb_le (length r + length s) _)) by lia.
  rewrite (proj2 (Nat.eqb_eq _ _)) by lia. cbn [andb]. rewrite firstn_app_exact. f_equal. f_equal. f_equal.
  rewrite skipn_app. rewrite skipn_all2 by lia. cbn [app]. f_equal. lia.
Qed.
Lemma rest_ok : forall {X} B step (x0 : X) (bymod : bool) M xx t d c1 k1, 0 < B -> length t = B -> length c1 = k1 * B ->
  xx = fold_left step (chunks B c1) x0 -> M = c1 ++ d -> (N.of_nat (length M) < 2 ^ 61)%N ->
  exists st', match blocks B step (length d) xx d with
      | None => None
      | Some (x, data) =>
          match slcp t 0 (if bymod then N.to_nat (N.of_nat (length M) mod N.of_nat B) else length data) data with
          | Some t => Some (mkst x t (N.of_nat (length M)))
          | None => None
          end
      end = Some st' /\ Inv B step x0 st' M.
Proof.
  intros X B step x0 bymod M xx t d c1 k1 HB Lt Lc Ex EM HM.
  destruct (blocks_ok step B (length d) xx d HB (le_n _)) as (c & r & k & E & Lk & Lr & Eb). rewrite Eb.
  assert (Lcc : length (c1 ++ c) = (k1 + k) * B) by (rewrite app_length; lia).
  assert (EM' : M = (c1 ++ c) ++ r) by (rewrite EM, E, app_assoc; reflexivity).
  replace (if bymod then _ else _) with (length r) by (destruct bymod; [ rewrite EM'; symmetry; apply (ntail_eq B (k1 + k)); assumption | reflexivity ]).
  rewrite slcp_0 by lia. eexists. split; [ reflexivity | ]. exists (c1 ++ c), r, (skipn (length r) t), (k1 + k).
  cbn [x tail msglen]. repeat split; try assumption.
  - rewrite (chunks_app B k1) by assumption. rewrite fold_left_app, <- Ex. reflexivity.
  - rewrite app_length, skipn_length. lia.
Qed.
Lemma hadd_ok : forall {X} B step (x0 : X) bymod st m data, 0 < B -> Inv B step x0 st m -> (N.of_nat (length (m ++ data)) < 2 ^ 61)%N ->
  exists st', hadd B step bymod st data = Some st' /\ Inv B step x0 st' (m ++ data).
Proof.
  intros X B step x0 bymod st m data HB (c & r & j & k & E & Lc & Lr & Ex & Et & Lt & El & Eb) Hl.
  assert (El' : ((msglen st + N.of_nat (length data)) mod 2 ^ 64 = N.of_nat (length (m ++ data)))%N).
  { rewrite El, <- Nat2N.inj_add, <- app_length. apply N.mod_small. assert (2 ^ 61 < 2 ^ 64)%N by reflexivity. lia. }
  unfold hadd. rewrite El'. replace (N.to_nat (msglen st mod N.of_nat B)) with (length r)
    by (rewrite El, E; symmetry; apply (ntail_eq B k); assumption).
  destruct (Nat.ltb_spec 0 (length r)) as [P | P].
  - remember (Nat.min (B - length r) (length data)) as n eqn:Hn. rewrite Et in Lt |- *. rewrite app_length in Lt.
    assert (Ln : length (firstn n data) = n) by (rewrite firstn_length; lia).
    replace (length r + n) with (length r + length (firstn n data)) by lia. rewrite slcp_mid by lia. rewrite Ln.
    destruct (Nat.ltb_spec (n + length r) B) as [Q | Q].
    + eexists. split; [ reflexivity | ]. assert (En : n = length data) by lia. rewrite En, firstn_all.
      exists c, (r ++ data), (skipn (length data) j), k. cbn [x tail msglen]. repeat split; try assumption.
      * rewrite E, app_assoc. reflexivity.
      * rewrite app_length. lia.
      * rewrite app_assoc. reflexivity.
      * rewrite !app_length, skipn_length. lia.
    + assert (En : n = B - length r) by lia. rewrite (skipn_all2 j) by lia. rewrite app_nil_r.
      assert (Lb : length (r ++ firstn n data) = B) by (rewrite app_length; lia).
      apply (rest_ok B step x0 bymod (m ++ data) (step (x st) (r ++ firstn n data)) (r ++ firstn n data) (skipn n data)
        (c ++ (r ++ firstn n data)) (S k)); try assumption.
      * rewrite app_length, Lb. lia.
      * rewrite (chunks_app B k) by assumption. rewrite fold_left_app, <- Ex, chunks_one by assumption. reflexivity.
      * rewrite E, <- !app_assoc, firstn_skipn. reflexivity.
  - assert (r = []) by (destruct r; [ reflexivity | cbn in P; lia ]). subst r. rewrite app_nil_r in E. subst m.
    apply (rest_ok B step x0 bymod (c ++ data) (x st) (tail st) data c k); try assumption. reflexivity.
Qed.
Lemma fill_app : forall a b, fill (a ++ b) (length a) = a ++ repeat 0%N (length b).
Proof. intros a b. unfold fill. rewrite firstn_app_exact, app_length. f_equal. f_equal. lia. Qed.
Lemma setat_app : forall a b c l, length l = length b -> setat (a ++ b ++ c) (length a) l = a ++ l ++ c.
Proof.
  intros a b c l H. unfold setat. rewrite firstn_app_exact. f_equal. f_equal. rewrite H. rewrite app_assoc, <- app_length. apply skipn_app_exact.
Qed.
Lemma repeat_app' : forall {A} (a : A) n m, repeat a (n + m) = repeat a n ++ repeat a m.
Proof. intros. apply repeat_app. Qed.
Lemma lastblocks_ok : forall {X} B step (x0 : X) L enc size st m, L + 1 < B -> 8 <= L -> Inv B step x0 st m -> length (size (msglen st)) = 8 ->
  enc L (8 * N.of_nat (length m))%N = repeat 0%N (L - 8) ++ size (msglen st) ->
  x (lastblocks B step L size st) = fold_left step (chunks B (pad B L enc m)) x0 /\ length (tail (lastblocks B step L size st)) = B.
Proof.
  intros X B step x0 L enc size st m HB HL (c & r & j & k & E & Lc & Lr & Ex & Et & Lt & El & Eb) Ls Enc.
  assert (H0 : 0 < B) by lia. unfold lastblocks.
  replace (N.to_nat (msglen st mod N.of_nat B)) with (length r) by (rewrite El, E; symmetry; apply (ntail_eq B k); assumption).
  rewrite Et in Lt |- *. rewrite app_length in Lt. destruct j as [ | j0 j]; [ cbn in Lt; lia | ]. cbn [length] in Lt.
  change (j0 :: j) with ([j0] ++ j). rewrite setat_app by reflexivity.
  replace (length r + 1) with (length (r ++ [128%N])) by (rewrite app_length; reflexivity).
  change 0x80%N with 128%N. rewrite app_assoc, fill_app. replace (length (r ++ [128%N])) with (length r + 1) by (rewrite app_length; reflexivity).
  unfold pad. rewrite Enc, E. set (S8 := size (msglen st)) in *. rewrite app_length, Lc.
  assert (Z : forall z1, setat (z1 ++ repeat 0%N 8) (length z1) S8 = z1 ++ S8).
  { intros z1. rewrite <- (app_nil_r (repeat 0%N 8)), setat_app by (rewrite repeat_length; assumption). rewrite app_nil_r. reflexivity. }
  destruct (Nat.ltb_spec (B - (length r + 1)) L) as [Q | Q].
  - replace ((B - (k * B + length r + 1 + L) mod B) mod B) with (2 * B - (length r + 1 + L)).
    2: { replace (k * B + length r + 1 + L) with ((length r + 1 + L - B) + (k + 1) * B) by lia. rewrite Nat.mod_add by lia.
         rewrite (Nat.mod_small (length r + 1 + L - B)) by lia. rewrite Nat.mod_small by lia. lia. }
    assert (F0 : fill ((r ++ [128%N]) ++ repeat 0%N (length j)) 0 = repeat 0%N (B - 8) ++ repeat 0%N 8).
    { unfold fill. cbn [firstn app]. rewrite <- repeat_app'. f_equal. rewrite !app_length, repeat_length. cbn [length]. lia. }
    rewrite F0. pose proof (Z (repeat 0%N (B - 8))) as Z0. rewrite repeat_length in Z0. rewrite Z0.
    cbn [x tail]. split.
    2: { rewrite app_length, repeat_length. lia. }
    replace (2 * B - (length r + 1 + L)) with (length j + (B - L)) by lia. rewrite repeat_app'.
    replace (repeat 0%N (B - 8)) with (repeat 0%N (B - L) ++ repeat 0%N (L - 8)) by (rewrite <- repeat_app'; f_equal; lia).
    replace ((c ++ r) ++ [128%N] ++ (repeat 0%N (length j) ++ repeat 0%N (B - L)) ++ repeat 0%N (L - 8) ++ S8)
      with (c ++ ((r ++ [128%N]) ++ repeat 0%N (length j)) ++ (repeat 0%N (B - L) ++ repeat 0%N (L - 8)) ++ S8) by (rewrite <- !app_assoc; reflexivity).
    rewrite (chunks_app B k) by assumption. rewrite (chunks_app B 1); [ | assumption | rewrite !app_length, repeat_length; cbn [length] ].
    2: { lia. }
    rewrite !fold_left_app, <- Ex. rewrite !chunks_one; try assumption; try reflexivity.
    + rewrite !app_length, repeat_length. cbn [length]. lia.
    + rewrite !app_length, !repeat_length. lia.
  - replace ((B - (k * B + length r + 1 + L) mod B) mod B) with (B - (length r + 1 + L)).
    2: { destruct (Nat.eq_dec (length r + 1 + L) B) as [W | W].
         - replace (k * B + length r + 1 + L) with (0 + (k + 1) * B) by lia. rewrite Nat.mod_add, Nat.mod_0_l, Nat.sub_0_r, Nat.mod_same by lia. lia.
         - replace (k * B + length r + 1 + L) with ((length r + 1 + L) + k * B) by lia. rewrite Nat.mod_add by lia.
           rewrite (Nat.mod_small (length r + 1 + L)) by lia. rewrite Nat.mod_small by lia. lia. }
    assert (F0 : (r ++ [128%N]) ++ repeat 0%N (length j) = ((r ++ [128%N]) ++ repeat 0%N (length j - 8)) ++ repeat 0%N 8).
    { rewrite <- !app_assoc. rewrite <- repeat_app'. do 3 f_equal. lia. }
    rewrite F0. replace (B - 8) with (length ((r ++ [128%N]) ++ repeat 0%N (length j - 8))) by (rewrite !app_length, repeat_length; cbn [length]; lia).
    rewrite Z. cbn [x tail]. split.
    2: { rewrite !app_length, repeat_length. cbn [length]. lia. }
    replace ((c ++ r) ++ [128%N] ++ repeat 0%N (B - (length r + 1 + L)) ++ repeat 0%N (L - 8) ++ S8)
      with (c ++ (((r ++ [128%N]) ++ repeat 0%N (length j - 8)) ++ S8)).
    2: { rewrite <- !app_assoc. do 3 f_equal. rewrite app_assoc, <- repeat_app'. do 2 f_equal. lia. }
    rewrite (chunks_app B k) by assumption. rewrite fold_left_app, <- Ex. rewrite chunks_one; try assumption; try reflexivity.
    rewrite !app_length, repeat_length. cbn [length]. lia.
Qed.
Lemma keccakfin_ok : forall B x0 st m, 1 < B -> Inv B step_keccak x0 st m ->
  x (keccakfin B st) = fold_left step_keccak (chunks B (pad101 B m)) x0 /\ length (tail (keccakfin B st)) = B.
Proof.
  intros B x0 st m HB (c & r & j & k & E & Lc & Lr & Ex & Et & Lt & El & Eb). assert (H0 : 0 < B) by lia. unfold keccakfin.
  replace (N.to_nat (msglen st mod N.of_nat B)) with (length r) by (rewrite El, E; symmetry; apply (ntail_eq B k); assumption).
  rewrite Et in Lt |- *. rewrite app_length in Lt. rewrite fill_app. destruct j as [ | j0 j]; [ cbn in Lt; lia | ]. cbn [length] in Lt |- *. clear Et.
  assert (I : forall a b, idx (r ++ a :: b) (length r) = a).
  { intros a b. unfold idx. rewrite app_nth2, Nat.sub_diag by lia. reflexivity. }
  assert (J : forall (a : list N) b, idx (a ++ [b]) (length (a ++ [b]) - 1) = b).
  { intros a b. unfold idx. rewrite app_length. cbn [length]. rewrite app_nth2 by lia. replace (length a + 1 - 1 - length a) with 0 by lia. reflexivity. }
  cbn [repeat]. rewrite I. change (0%N :: repeat 0%N (length j)) with ([0%N] ++ repeat 0%N (length j)). rewrite setat_app by reflexivity.
  unfold pad101. rewrite E. replace (length (c ++ r) mod B) with (length r).
  2: { rewrite app_length, Lc, Nat.add_comm, Nat.mod_add, Nat.mod_small by lia. reflexivity. }
  replace (B - length r) with (S (length j)) by lia.
  assert (D : forall a b v, setat (a ++ [b]) (length (a ++ [b]) - 1) [v] = a ++ [v]).
  { intros a b v. replace (length (a ++ [b]) - 1) with (length a) by (rewrite app_length; cbn [length]; lia).
    replace (a ++ [b]) with (a ++ [b] ++ []) by (rewrite app_nil_r; reflexivity). rewrite setat_app by reflexivity. rewrite app_nil_r. reflexivity. }
  destruct j as [ | j1 j]; cbn [length repeat app].
  - change (N.lor 0 1) with 1%N. rewrite J, D. change (N.lor 1 0x80) with 129%N. cbn [x tail].
    rewrite <- app_assoc. rewrite (chunks_app B k) by assumption. rewrite fold_left_app, <- Ex.
    rewrite chunks_one; try assumption; rewrite ?app_length; cbn [length] in *; try lia. cbn [fold_left]. split; [ reflexivity | lia ].
  - change (N.lor 0 1) with 1%N.
    replace (r ++ 1%N :: 0%N :: repeat 0%N (length j)) with ((r ++ 1%N :: repeat 0%N (length j)) ++ [0%N]).
    2: { rewrite <- app_assoc. cbn [app]. do 2 f_equal. change [0%N] with (repeat 0%N 1). rewrite <- repeat_app'. rewrite Nat.add_1_r. reflexivity. }
    rewrite J, D. change (N.lor 0 0x80) with 128%N. cbn [x tail]. replace (S (S (length j)) - 2) with (length j) by lia.
    replace ((c ++ r) ++ 1%N :: repeat 0%N (length j) ++ [128%N]) with (c ++ ((r ++ 1%N :: repeat 0%N (length j)) ++ [128%N])) by (rewrite <- !app_assoc; reflexivity).
    rewrite (chunks_app B k) by assumption. rewrite fold_left_app, <- Ex.
    rewrite chunks_one; [ cbn [fold_left]; split; [ reflexivity | ] | assumption | ]; rewrite !app_length; cbn [length] in *; rewrite repeat_length; lia.
Qed.
