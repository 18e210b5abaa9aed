(* Probe-sequence facts shared by both hash tables. *)
From Verif Require Import Base OpenAddr_Model.
Open Scope N_scope.
Ltac Zify.zify_post_hook ::= Z.div_mod_to_equations.

Lemma mkslot_hashk {K V} (hash : K -> N) (k0 k : K) (v : V) d : mkslot (hashk hash k0) k v d = Some (hashk hash k0, k, v, d).
Proof. unfold mkslot, hashk. destruct (N.eqb_spec (hash k0) 0) as [E|E]; cbn; auto. apply N.eqb_neq in E. now rewrite E. Qed.

(* counting with a predicate *)
Definition cnt {A} (p : A -> bool) (l : list A) : nat := length (filter p l).

Lemma cnt_cons {A} (p : A -> bool) x l : cnt p (x :: l) = ((if p x then 1 else 0) + cnt p l)%nat.
Proof. unfold cnt; cbn. destruct (p x); reflexivity. Qed.

Lemma cnt_upd {A} (p : A -> bool) l i x d : (i < length l)%nat ->
  (cnt p (upd l i x) + (if p (nth i l d) then 1 else 0) = cnt p l + (if p x then 1 else 0))%nat.
Proof.
  revert i; induction l as [|h t IH]; intros [|i] H; cbn [length] in H; try lia; cbn [upd nth]; rewrite !cnt_cons.
  - lia.
  - specialize (IH i ltac:(lia)). lia.
Qed.

Lemma cnt_le {A} (p : A -> bool) l : (cnt p l <= length l)%nat.
Proof. induction l as [|h t IH]; [unfold cnt; cbn; lia|]. rewrite cnt_cons; cbn [length]. destruct (p h); lia. Qed.

Lemma cnt_repeat {A} (p : A -> bool) x n : p x = false -> cnt p (repeat x n) = 0%nat.
Proof. intros H; induction n as [|n IH]; [reflexivity|]. cbn [repeat]. rewrite cnt_cons, H, IH. reflexivity. Qed.

Section P.
Context {K V : Type}.
Variable hash : K -> N.
Variable cmp : K -> K -> bool.
Definition live (s : slot K V) : bool := match s with Some (_, _, _, false) => true | _ => false end.
Definition deadb (s : slot K V) : bool := match s with Some (_, _, _, true) => true | _ => false end.
Definition used (s : slot K V) : bool := match s with Some _ => true | _ => false end.

Lemma used_cnt t : cnt used t = (cnt live t + cnt deadb t)%nat.
Proof. clear hash cmp.
  induction t as [|[[[[h k] v] [|]]|] t IH]; [reflexivity| | |]; rewrite !cnt_cons; cbn; lia.
Qed.

Hypothesis crefl : forall a, cmp a a = true.
Hypothesis csym : forall a b, cmp a b = cmp b a.
Hypothesis ctrans : forall a b c, cmp a b = true -> cmp b c = true -> cmp a c = true.
Hypothesis chash : forall a b, cmp a b = true -> hash a = hash b.
Notation tab := (tab K V).
Notation hk := (hashk hash).

Lemma hk_cmp a b : cmp a b = true -> hk a = hk b.
Proof. intros H; unfold hashk. now rewrite (chash _ _ H). Qed.

Definition pow2 (n : nat) : Prop := exists p, N.of_nat n = 2 ^ p.

Lemma pow2_double n : pow2 n -> pow2 (n * 2).
Proof. intros [p H]. exists (p + 1). rewrite N.pow_add_r, <- H. change (2 ^ 1) with 2. lia. Qed.

Lemma pow2_pos n : pow2 n -> (0 < n)%nat.
Proof. intros [p H]. assert (2 ^ p <> 0) by (apply N.pow_nonzero; lia). lia. Qed.

Lemma pos_mod h d n : pow2 n -> pos h d n = N.to_nat ((h + d) mod N.of_nat n).
Proof.
  intros [p H]. unfold pos. rewrite H, <- N.land_ones. f_equal. f_equal.
  unfold N.ones. now rewrite N.shiftl_1_l, N.sub_1_r.
Qed.

Lemma pos_lt h d n : pow2 n -> (pos h d n < n)%nat.
Proof.
  intros H. rewrite pos_mod by auto. pose proof (pow2_pos _ H).
  pose proof (N.mod_lt (h + d) (N.of_nat n)). lia.
Qed.

Lemma pos_cover h n j : pow2 n -> (j < n)%nat -> exists d, d < N.of_nat n /\ pos h d n = j.
Proof.
  intros H Hj. pose proof (pow2_pos _ H) as Hp. set (m := N.of_nat n).
  exists ((N.of_nat j + (m - h mod m)) mod m). split; [apply N.mod_lt; lia|].
  rewrite pos_mod by auto. fold m.
  rewrite N.add_mod_idemp_r by lia.
  pose proof (N.mod_lt h m ltac:(lia)) as Hm.
  pose proof (N.div_mod h m ltac:(lia)) as Hd.
  replace (h + (N.of_nat j + (m - h mod m))) with (N.of_nat j + (h / m + 1) * m) by lia.
  rewrite N.mod_add by lia. rewrite N.mod_small by lia. lia.
Qed.

(* some probe position is not used *)
Lemma free_pos t h : pow2 (length t) -> (cnt used t < length t)%nat ->
  exists d, d < N.of_nat (length t) /\ at_ t h d = None.
Proof.
  intros Hp Hc.
  assert (E : exists j, (j < length t)%nat /\ nth j t None = None).
  { clear Hp. induction t as [|s t IH]; [cbn in Hc; lia|].
    rewrite cnt_cons in Hc. cbn [length] in *. destruct s as [s|].
    - cbn [used] in Hc. destruct IH as (j & Hj & E); [lia|]. exists (S j). split; [lia|exact E].
    - exists O. split; [lia|reflexivity]. }
  destruct E as (j & Hj & E). destruct (pos_cover h (length t) j Hp Hj) as (d & Hd & P).
  exists d; split; auto. unfold at_. now rewrite P.
Qed.

(* table invariant: hashes are right and every live entry is reachable by its probe sequence *)
Record inv (t : tab) : Prop := {
  i_pow : pow2 (length t);
  i_hash : forall j h k v d, nth j t None = Some (h, k, v, d) -> h = hk k;
  i_reach : forall j h k v, nth j t None = Some (h, k, v, false) ->
     exists d, d < N.of_nat (length t) /\ pos (hk k) d (length t) = j /\
       forall d', d' < d -> used (at_ t (hk k) d') = true }.

Definition Has (t : tab) (k : K) (v : V) : Prop :=
  exists j h k', nth j t None = Some (h, k', v, false) /\ cmp k' k = true.
Definition unique (t : tab) : Prop :=
  forall i j hi ki vi hj kj vj, nth i t None = Some (hi, ki, vi, false) ->
    nth j t None = Some (hj, kj, vj, false) -> cmp ki kj = true -> i = j.

Definition matches (k : K) (s : slot K V) : bool :=
  match s with Some (h', k', _, false) => (h' =? hk k) && cmp k' k | _ => false end.

Lemma matches_has t k : inv t -> (forall v, ~ Has t k v) <-> (forall j, matches k (nth j t None) = false).
Proof.
  intros I; split.
  - intros H j. destruct (nth j t None) as [[[[h' k'] v] [|]]|] eqn:E; auto. cbn.
    destruct (cmp k' k) eqn:C; [|now rewrite andb_false_r]. exfalso.
    apply (H v). exists j, h', k'. auto.
  - intros H v (j & h & k' & E & C). specialize (H j). rewrite E in H. cbn in H.
    rewrite (i_hash _ I _ _ _ _ _ E), (hk_cmp _ _ C), N.eqb_refl, C in H. discriminate.
Qed.

(* put_find *)
Definition pf_post (t : tab) (k : K) (r : nat * bool) : Prop :=
  exists d, d < N.of_nat (length t) /\ fst r = pos (hk k) d (length t) /\
    (forall d', d' < d -> live (at_ t (hk k) d') = true /\ matches k (at_ t (hk k) d') = false) /\
    (if snd r then matches k (at_ t (hk k) d) = true else live (at_ t (hk k) d) = false).

Lemma put_find_gen t k : (exists d, d < N.of_nat (length t) /\ live (at_ t (hk k) d) = false) ->
  forall fuel di, N.of_nat (length t) = N.of_nat fuel + di ->
  (forall d', d' < di -> live (at_ t (hk k) d') = true /\ matches k (at_ t (hk k) d') = false) ->
  exists r, put_find cmp fuel t (hk k) k di = Some r /\ pf_post t k r.
Proof.
  intros (d0 & Hd0 & Hl0). induction fuel as [|f IH]; intros di Hf Hpre.
  - exfalso. destruct (Hpre d0) as [Hx _]; [lia|]. congruence.
  - cbn [put_find]. destruct (at_ t (hk k) di) as [[[[h' k'] v'] [|]]|] eqn:E.
    + exists (pos (hk k) di (length t), false). split; auto. exists di. cbn. rewrite E. repeat split; auto; try lia; apply Hpre; auto.
    + destruct ((h' =? hk k) && cmp k' k) eqn:M.
      * exists (pos (hk k) di (length t), true). split; auto. exists di. cbn. rewrite E. repeat split; auto; try lia; try apply Hpre; auto.
      * apply IH; [lia|]. intros d' Hd'. destruct (N.eq_dec d' di) as [->|Hne].
        { rewrite E. split; auto. }
        { apply Hpre; lia. }
    + exists (pos (hk k) di (length t), false). split; auto. exists di. cbn. rewrite E. repeat split; auto; try lia; apply Hpre; auto.
Qed.

Lemma put_find_ok t k : pow2 (length t) -> (cnt used t < length t)%nat ->
  exists r, put_find cmp (length t) t (hk k) k 0 = Some r /\ pf_post t k r.
Proof.
  intros Hp Hc. apply put_find_gen; try lia.
  destruct (free_pos t (hk k) Hp Hc) as (d & Hd & E). exists d. rewrite E. auto.
Qed.

Definition put_slot (t : tab) (i : nat) (k k0 : K) (v : V) : tab := upd t i (Some (hk k, k0, v, false)).

(* writing an equal key at the slot put_find returned keeps the invariant *)
Lemma at_used_upd t i s h d : used s = true -> used (at_ t h d) = true -> used (at_ (upd t i s) h d) = true.
Proof.
  intros Hs H. unfold at_ in *. rewrite upd_length, nth_upd. destruct (_ && _); auto.
Qed.

Lemma inv_upd_put t k r k0 v : inv t -> pf_post t k r -> cmp k0 k = true -> inv (put_slot t (fst r) k k0 v).
Proof.
  intros I (d & Hd & Hr & Hpre & Hst) C. unfold put_slot.
  assert (Hlt : (fst r < length t)%nat) by (rewrite Hr; apply pos_lt, I).
  split.
  - rewrite upd_length; apply I.
  - intros j h k1 v1 d1 E. rewrite nth_upd in E. destruct (_ && _) eqn:B.
    + inversion E; subst. now rewrite (hk_cmp _ _ C).
    + eapply I; eauto.
  - intros j h k1 v1 E. rewrite nth_upd in E. rewrite upd_length. destruct (_ && _) eqn:B.
    + apply andb_true_iff in B as [B _]. apply Nat.eqb_eq in B. inversion E; subst k1.
      exists d. rewrite (hk_cmp _ _ C). repeat split; auto; [congruence|].
      intros d' Hd'. apply at_used_upd; auto. destruct (Hpre _ Hd') as [Hl _].
      destruct (at_ t (hk k) d') as [[[[? ?] ?] ?]|]; auto.
    + destruct (i_reach _ I _ _ _ _ E) as (d1 & H1 & H2 & H3). exists d1. repeat split; auto.
      intros d' Hd'. apply at_used_upd; auto.
Qed.

(* a slot returned by put_find without a conflict, when no tombstone exists, means the key is absent *)
Lemma pf_nodead_absent t k r : inv t -> pf_post t k r -> snd r = false ->
  deadb (nth (fst r) t None) = false -> forall v, ~ Has t k v.
Proof.
  intros I (d & Hd & Hr & Hpre & Hst) Hf Hdead v (j & h & k' & E & C).
  rewrite Hf in Hst.
  assert (Hnone : at_ t (hk k) d = None).
  { unfold at_ in *. rewrite <- Hr in *. destruct (nth (fst r) t None) as [[[[? ?] ?] [|]]|]; cbn in *; auto; discriminate. }
  destruct (i_reach _ I _ _ _ _ E) as (dj & H1 & H2 & H3).
  rewrite (hk_cmp _ _ C) in *.
  destruct (N.lt_trichotomy dj d) as [Hlt|[->|Hgt]].
  - destruct (Hpre _ Hlt) as [_ Hm]. unfold at_ in Hm. rewrite H2, E in Hm. cbn in Hm.
    rewrite (i_hash _ I _ _ _ _ _ E), (hk_cmp _ _ C), N.eqb_refl, C in Hm. discriminate.
  - unfold at_ in Hnone. rewrite H2, E in Hnone. discriminate.
  - specialize (H3 _ Hgt). rewrite Hnone in H3. discriminate.
Qed.

(* effect of the write on the represented map *)
Lemma put_effect t k r k0 v : inv t -> unique t -> pf_post t k r -> cmp k0 k = true ->
  (snd r = true \/ forall v, ~ Has t k v) ->
  unique (put_slot t (fst r) k k0 v) /\
  forall x w, Has (put_slot t (fst r) k k0 v) x w <-> (if cmp k x then w = v else Has t x w).
Proof.
  intros I U (d & Hd & Hr & Hpre & Hst) C Hc.
  assert (Hlt : (fst r < length t)%nat) by (rewrite Hr; apply pos_lt, I).
  (* other live slots never hold an equal key *)
  assert (Hother : forall j h k' w, j <> fst r -> nth j t None = Some (h, k', w, false) -> cmp k' k = false).
  { intros j h k' w Hj E. destruct (cmp k' k) eqn:C'; auto. exfalso.
    destruct Hc as [Hc|Hc]; [|apply (Hc w); exists j, h, k'; auto].
    rewrite Hc in Hst. unfold at_ in Hst. rewrite <- Hr in Hst.
    destruct (nth (fst r) t None) as [[[[h2 k2] v2] [|]]|] eqn:E2; cbn in Hst; try discriminate.
    apply andb_true_iff in Hst as [_ C2].
    apply Hj. apply (U _ _ _ _ _ _ _ _ E E2). apply ctrans with k; [auto|now rewrite csym]. }
  assert (HC : forall x, cmp k x = true -> cmp k0 x = true) by (intros x Hx; eapply ctrans; eauto).
  split.
  - intros i j hi ki vi hj kj vj Ei Ej Cij. unfold put_slot in *. rewrite nth_upd in Ei, Ej.
    destruct (Nat.ltb_spec (fst r) (length t)) as [_|]; [|lia]. rewrite andb_true_r in *.
    destruct (Nat.eqb_spec (fst r) i) as [Hi|Hi], (Nat.eqb_spec (fst r) j) as [Hj|Hj]; try congruence.
    + inversion Ei; subst ki. exfalso. assert (cmp kj k = false) by (eapply Hother; eauto).
      assert (cmp kj k = true); [|congruence]. eapply ctrans; [rewrite csym; eauto|auto].
    + inversion Ej; subst kj. exfalso. assert (cmp ki k = false) by (eapply Hother; eauto).
      assert (cmp ki k = true); [|congruence]. eapply ctrans; eauto.
    + eapply U; eauto.
  - intros x w. unfold Has, put_slot. destruct (cmp k x) eqn:Cx.
    + split.
      * intros (j & h & k' & E & C'). rewrite nth_upd in E. destruct (_ && _) eqn:B; [congruence|].
        destruct (Nat.ltb_spec (fst r) (length t)) as [_|]; [|lia]. rewrite andb_true_r in B. apply Nat.eqb_neq in B.
        exfalso. assert (cmp k' k = false) by (eapply Hother; eauto).
        assert (cmp k' k = true); [|congruence]. eapply ctrans; eauto; now rewrite csym.
      * intros ->. exists (fst r), (hk k), k0. rewrite nth_upd_same by auto. split; auto.
    + split.
      * intros (j & h & k' & E & C'). rewrite nth_upd in E. destruct (_ && _) eqn:B.
        { inversion E; subst k'. exfalso. assert (cmp k x = true); [|congruence]. eapply ctrans; [rewrite csym; eauto|auto]. }
        exists j, h, k'. auto.
      * intros (j & h & k' & E & C'). exists j, h, k'. split; auto.
        rewrite nth_upd_other; auto. intros <-.
        (* slot j = fst r is live with key k' equal to x: then it is not the conflict slot, and
           the non-conflict slot is not live *)
        destruct (snd r).
        { unfold at_ in Hst. rewrite <- Hr, E in Hst. cbn in Hst. apply andb_true_iff in Hst as [_ C2].
          assert (cmp k x = true); [|congruence]. apply ctrans with k'; [now rewrite csym|auto]. }
        { unfold at_ in Hst. rewrite <- Hr, E in Hst. discriminate. }
Qed.

Lemma pf_counts t k r k0 v : inv t -> pf_post t k r ->
  let t' := put_slot t (fst r) k k0 v in
  length t' = length t /\
  cnt live t' = (cnt live t + (if snd r then 0 else 1))%nat /\
  (cnt deadb t' + (if deadb (nth (fst r) t None) then 1 else 0) = cnt deadb t)%nat.
Proof.
  intros I (d & Hd & Hr & Hpre & Hst). cbv zeta. unfold put_slot.
  assert (Hlt : (fst r < length t)%nat) by (rewrite Hr; apply pos_lt, I).
  split; [apply upd_length|].
  pose proof (cnt_upd live t (fst r) (Some (hk k, k0, v, false)) None Hlt) as H1.
  pose proof (cnt_upd deadb t (fst r) (Some (hk k, k0, v, false)) None Hlt) as H2.
  unfold at_ in Hst. rewrite <- Hr in Hst.
  destruct (snd r), (nth (fst r) t None) as [[[[? ?] ?] [|]]|]; cbn in *; try discriminate; lia.
Qed.

(* entries *)
Lemma in_entries (t : tab) k v : In (k, v) (entries t) <-> exists j h, nth j t None = Some (h, k, v, false).
Proof.
  unfold entries. rewrite in_flat_map. split.
  - intros (s & Hin & Hs). apply In_nth with (d := None) in Hin as (j & Hj & E).
    exists j. destruct s as [[[[h' k'] v'] [|]]|]; cbn in Hs; try tauto.
    destruct Hs as [Hs|[]]. inversion Hs; subst. eauto.
  - intros (j & h & E). destruct (Nat.lt_ge_cases j (length t)) as [Hj|Hj].
    + exists (nth j t None). split; [apply nth_In; auto|]. rewrite E. cbn; auto.
    + rewrite nth_overflow in E by auto. discriminate.
Qed.

Lemma entries_length (t : tab) : length (entries t) = cnt live t.
Proof.
  induction t as [|[[[[h k] v] [|]]|] t IH]; [reflexivity| | |]; rewrite cnt_cons; cbn [live];
    unfold entries in *; cbn [flat_map app length]; rewrite IH; reflexivity.
Qed.

Definition distinct (es : list (K * V)) : Prop :=
  ForallOrdPairs (fun a b => cmp (fst a) (fst b) = false) es.

Lemma unique_tail s t : unique (s :: t) -> unique t.
Proof.
  intros U i j hi ki vi hj kj vj Ei Ej C.
  specialize (U (S i) (S j) hi ki vi hj kj vj Ei Ej C). lia.
Qed.

Lemma entries_distinct (t : tab) : unique t -> distinct (entries t).
Proof.
  induction t as [|s t IH]; intros U; [constructor|].
  specialize (IH (unique_tail _ _ U)).
  destruct s as [[[[h k] v] [|]]|]; cbn; auto.
  constructor; auto. apply Forall_forall. intros [k' v'] Hin. cbn.
  apply in_entries in Hin as (j & h' & E). destruct (cmp k k') eqn:C; auto. exfalso.
  specialize (U O (S j) h k v h' k' v' eq_refl E C). lia.
Qed.

Lemma nth_repeat_None n j : nth j (repeat (None : slot K V) n) None = None.
Proof. apply nth_repeat_d. Qed.

Lemma inv_empty n : pow2 n -> inv (repeat None n).
Proof.
  intros H. split.
  - now rewrite repeat_length.
  - intros j h k v d E. rewrite nth_repeat_None in E. discriminate.
  - intros j h k v E. rewrite nth_repeat_None in E. discriminate.
Qed.
Lemma unique_empty n : unique (repeat None n).
Proof. intros i j hi ki vi hj kj vj E. rewrite nth_repeat_None in E. discriminate. Qed.
Lemma has_empty n k v : ~ Has (repeat None n) k v.
Proof. intros (j & h & k' & E & _). rewrite nth_repeat_None in E. discriminate. Qed.

(* marking a live slot dead *)
Definition kill_slot (t : tab) (i : nat) : tab :=
  match nth i t None with Some (h, k, v, _) => upd t i (Some (h, k, v, true)) | None => t end.

Lemma kill_spec t i h k v : inv t -> nth i t None = Some (h, k, v, false) ->
  let t' := upd t i (Some (h, k, v, true)) in
  inv t' /\ (unique t -> unique t' /\ forall x w, Has t' x w <-> (cmp k x = false /\ Has t x w)) /\
  length t' = length t /\ (cnt live t' + 1 = cnt live t)%nat /\ (cnt deadb t' = cnt deadb t + 1)%nat.
Proof.
  intros I E t'.
  assert (Hlt : (i < length t)%nat).
  { destruct (Nat.lt_ge_cases i (length t)); auto. rewrite nth_overflow in E by auto; discriminate. }
  split; [|split].
  - split.
    + unfold t'; rewrite upd_length; apply I.
    + intros j h1 k1 v1 d1 E1. unfold t' in E1; rewrite nth_upd in E1. destruct (_ && _); [|eapply I; eauto].
      inversion E1; subst. eapply I; eauto.
    + intros j h1 k1 v1 E1. unfold t' in *; rewrite nth_upd in E1. rewrite upd_length.
      destruct (_ && _); [discriminate|]. destruct (i_reach _ I _ _ _ _ E1) as (d & A & B & C).
      exists d; repeat split; auto. intros d' Hd'. apply at_used_upd; auto.
  - intros U. split.
    + intros a b ha ka va hb kb vb Ea Eb. unfold t' in *. rewrite nth_upd in Ea, Eb.
      destruct ((i =? a)%nat && _); [discriminate|]. destruct ((i =? b)%nat && _); [discriminate|]. eapply U; eauto.
    + intros x w. split.
      * intros (j & h1 & k1 & E1 & C1). unfold t' in E1; rewrite nth_upd in E1.
        destruct (Nat.ltb_spec i (length t)) as [_|]; [|lia]. rewrite andb_true_r in E1.
        destruct (Nat.eqb_spec i j); [discriminate|]. split; [|exists j, h1, k1; auto].
        destruct (cmp k x) eqn:C; auto. exfalso. apply n. apply (U _ _ _ _ _ _ _ _ E E1). apply ctrans with x; [auto|now rewrite csym].
      * intros (C & j & h1 & k1 & E1 & C1). exists j, h1, k1. split; auto. unfold t'.
        rewrite nth_upd_other; auto. intros <-. congruence.
  - pose proof (cnt_upd live t i (Some (h, k, v, true)) None Hlt) as H1.
    pose proof (cnt_upd deadb t i (Some (h, k, v, true)) None Hlt) as H2. rewrite E in H1, H2. cbn in H1, H2.
    unfold t'. rewrite upd_length. repeat split; lia.
Qed.

(* lookup loop of std.htab (lib/std/htab.myr:81-103), also the C one up to the order of tests *)
Fixpoint find_loop (fuel : nat) (t : tab) (h : N) (k : K) (di : N) : option (option nat) :=
  match fuel with
  | O => None
  | S f =>
      match at_ t h di with
      | None => Some None
      | Some (h', k', _, d) =>
          if (h' =? h) && negb d && cmp k' k then Some (Some (pos h di (length t)))
          else find_loop f t h k (di + 1)
      end
  end.

Definition find_post (t : tab) (k : K) (r : option nat) : Prop :=
  match r with
  | Some i => exists k' v, nth i t None = Some (hk k, k', v, false) /\ cmp k' k = true
  | None => forall v, ~ Has t k v
  end.

Lemma find_gen t k : inv t -> (exists d, d < N.of_nat (length t) /\ at_ t (hk k) d = None) ->
  forall fuel di, N.of_nat (length t) = N.of_nat fuel + di ->
  (forall d', d' < di -> used (at_ t (hk k) d') = true /\ matches k (at_ t (hk k) d') = false) ->
  exists r, find_loop fuel t (hk k) k di = Some r /\ find_post t k r.
Proof.
  intros I (d0 & Hd0 & Hl0). induction fuel as [|f IH]; intros di Hf Hpre.
  - exfalso. destruct (Hpre d0) as [Hx _]; [lia|]. rewrite Hl0 in Hx. discriminate.
  - cbn [find_loop]. destruct (at_ t (hk k) di) as [[[[h' k'] v'] d]|] eqn:E.
    + destruct ((h' =? hk k) && negb d && cmp k' k) eqn:M.
      * eexists; split; [reflexivity|]. cbn. apply andb_true_iff in M as [M1 M3]. apply andb_true_iff in M1 as [M1 M2].
        apply N.eqb_eq in M1. destruct d; [discriminate|]. subst h'. exists k', v'. unfold at_ in E. auto.
      * apply IH; [lia|]. intros d' Hd'. destruct (N.eq_dec d' di) as [->|Hne]; [|apply Hpre; lia].
        rewrite E. split; auto. cbn. destruct d; auto. cbn [negb] in M. rewrite andb_true_r in M. exact M.
    + eexists; split; [reflexivity|]. cbn. intros v (j & h & k1 & E1 & C1).
      destruct (i_reach _ I _ _ _ _ E1) as (dj & H1 & H2 & H3). rewrite (hk_cmp _ _ C1) in *.
      destruct (N.lt_trichotomy dj di) as [Hlt|[->|Hgt]].
      * destruct (Hpre _ Hlt) as [_ Hm]. unfold at_ in Hm. rewrite H2, E1 in Hm. cbn in Hm.
        rewrite (i_hash _ I _ _ _ _ _ E1), (hk_cmp _ _ C1), N.eqb_refl, C1 in Hm. discriminate.
      * unfold at_ in E. rewrite H2, E1 in E. discriminate.
      * specialize (H3 _ Hgt). rewrite E in H3. discriminate.
Qed.

Lemma find_ok t k : inv t -> (cnt used t < length t)%nat ->
  exists r, find_loop (length t) t (hk k) k 0 = Some r /\ find_post t k r.
Proof.
  intros I Hc. apply find_gen; auto; try lia. apply free_pos; auto. apply I.
Qed.
End P.
