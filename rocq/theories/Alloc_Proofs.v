(* The invariant of the allocator. *)
From Coq Require Import Permutation.
From Verif Require Import Base Alloc_Model Alloc_Spec.
Open Scope Z_scope.

(* --- arithmetic --- *)
Lemma land_lnot_pow x k : 0 <= k -> Z.land x (Z.lnot (2 ^ k - 1)) = x - x mod 2 ^ k.
Proof.
  intros Hk. rewrite <- Z.ldiff_land. replace (2 ^ k - 1) with (Z.ones k) by (rewrite Z.ones_equiv; lia).
  rewrite Z.ldiff_ones_r, Z.shiftl_mul_pow2, Z.shiftr_div_pow2 by auto. pose proof (Z.div_mod x (2 ^ k) ltac:(lia)). lia.
Qed.
Lemma align_pow v k : 0 <= k -> v <= align v (2 ^ k) < v + 2 ^ k /\ align v (2 ^ k) mod 2 ^ k = 0.
Proof.
  intros Hk. unfold align. rewrite land_lnot_pow by auto. set (x := v + 2 ^ k - 1).
  pose proof (Z.mod_pos_bound x (2 ^ k) ltac:(lia)). pose proof (Z.div_mod x (2 ^ k) ltac:(lia)).
  split; [subst x; lia|]. replace (x - x mod 2 ^ k) with ((x / 2 ^ k) * 2 ^ k) by lia. apply Z.mod_mul. lia.
Qed.
Lemma align_page v : v <= align v Pagesz < v + Pagesz /\ align v Pagesz mod Pagesz = 0.
Proof. change Pagesz with (2 ^ 12). apply align_pow. lia. Qed.
Lemma align_slab v : v <= align v Slabsz < v + Slabsz /\ align v Slabsz mod Slabsz = 0.
Proof. change Slabsz with (2 ^ 19). apply align_pow. lia. Qed.
Lemma mtrunc_slab s c : s mod Slabsz = 0 -> s <= c < s + Slabsz -> mtrunc c Slabsz = s.
Proof.
  intros H R. unfold mtrunc. change Slabsz with (2 ^ 19) in *. rewrite land_lnot_pow by lia.
  pose proof (Z.div_mod s (2 ^ 19) ltac:(lia)). pose proof (Z.mod_pos_bound c (2 ^ 19) ltac:(lia)).
  pose proof (Z.div_mod c (2 ^ 19) ltac:(lia)). assert (c / 2 ^ 19 = s / 2 ^ 19) by nia. lia.
Qed.
Lemma bkt_facts i : (i < nbkts)%nat ->
  3 <= nper i /\ 48 + nper i * bsz i <= Slabsz /\ bsz i mod 16 = 0 /\ 16 <= bsz i.
Proof.
  intros H. assert (E : forallb (fun i => (3 <=? nper i) && (48 + nper i * bsz i <=? Slabsz) && (bsz i mod 16 =? 0) && (16 <=? bsz i))
    (seq 0 nbkts) = true) by (vm_compute; reflexivity).
  rewrite forallb_forall in E. specialize (E i). rewrite in_seq in E. specialize (E ltac:(lia)).
  rewrite !andb_true_iff, !Z.leb_le, Z.eqb_eq in E. tauto.
Qed.
(* every size up to the limit is served by a bucket that is large enough: the bucket depends only on the number of
   bits of (size - 1) / 8, which the shifts turn into a run of ones *)
Definition smear (v : Z) : Z :=
  let v := Z.lor v (Z.shiftr v 1) in
  let v := Z.lor v (Z.shiftr v 2) in
  let v := Z.lor v (Z.shiftr v 4) in
  let v := Z.lor v (Z.shiftr v 8) in
  Z.lor v (Z.shiftr v 16).
Definition bkttab (v : Z) : nat := Z.to_nat (nth (Z.to_nat (Z.shiftr ((v * 130329821) mod 2 ^ 32) 27)) bitpos 0).
(* a run of n ones below every set bit *)
Definition run (n : Z) (v w : Z) : Prop := forall i, 0 <= i -> (Z.testbit w i = true <-> exists k, 0 <= k < n /\ Z.testbit v (i + k) = true).
Lemma run_step n v w : 0 < n -> run n v w -> run (2 * n) v (Z.lor w (Z.shiftr w n)).
Proof.
  intros N R i I. rewrite Z.lor_spec, Z.shiftr_spec by lia. rewrite orb_true_iff, (R i I), (R (i + n) ltac:(lia)). split.
  - intros [(k & K & T)|(k & K & T)]; [exists k|exists (n + k)]; (split; [lia|]); [exact T|]. rewrite <- T. f_equal. lia.
  - intros (k & K & T). destruct (Z.ltb_spec k n); [left; exists k|right; exists (k - n)]; (split; [lia|]); [exact T|].
    rewrite <- T. f_equal. lia.
Qed.
Lemma smear_ones v : 0 < v < 2 ^ 32 -> smear v = Z.ones (Z.log2 v + 1).
Proof.
  intros V. assert (R1 : run 1 v v).
  { intros i I. split; [intros T; exists 0; rewrite Z.add_0_r; auto with zarith|]. intros (k & K & T). replace (i + k) with i in T by lia. exact T. }
  assert (R : run 32 v (smear v)).
  { unfold smear. do 5 (match goal with |- run _ _ (Z.lor ?w (Z.shiftr ?w ?n)) => apply (run_step n v w); [lia|] end). exact R1. }
  pose proof (Z.log2_nonneg v) as LN. assert (LB : Z.log2 v < 32) by (apply Z.log2_lt_pow2; lia).
  apply Z.bits_inj'. intros i I. rewrite Z.testbit_ones_nonneg by lia. destruct (Z.ltb_spec i (Z.log2 v + 1)) as [L|L].
  - apply R; [exact I|]. exists (Z.log2 v - i). split; [lia|]. replace (i + (Z.log2 v - i)) with (Z.log2 v) by lia. apply Z.bit_log2. lia.
  - destruct (Z.testbit (smear v) i) eqn:T; [|reflexivity]. apply R in T; [|exact I]. destruct T as (k & K & T).
    rewrite Z.bits_above_log2 in T by lia. discriminate.
Qed.
Lemma bktnum_ok sz : 0 <= sz <= Bktmax -> (bktnum sz < nbkts)%nat /\ sz <= bsz (bktnum sz).
Proof.
  intros H. change (bktnum sz) with (bkttab (smear (if 0 <? sz then Z.shiftr (sz - 1) 3 mod 2 ^ 32 else 0))).
  set (v := if 0 <? sz then Z.shiftr (sz - 1) 3 mod 2 ^ 32 else 0).
  assert (V : 0 <= v < 16384 /\ sz <= 8 * v + 8).
  { unfold v. destruct (Z.ltb_spec 0 sz) as [P|P]; [|lia]. rewrite Z.shiftr_div_pow2 by lia. change (2 ^ 3) with 8.
    change Bktmax with 131072 in H. change (2 ^ 32) with 4294967296. pose proof (Z.div_mod (sz - 1) 8 ltac:(lia)). pose proof (Z.mod_pos_bound (sz - 1) 8 ltac:(lia)).
    rewrite Z.mod_small by lia. lia. }
  clearbody v. destruct V as [V S].
  assert (T : forallb (fun k => (bkttab (Z.ones k) <? nbkts)%nat && (8 * 2 ^ k <=? bsz (bkttab (Z.ones k))))
                [0; 1; 2; 3; 4; 5; 6; 7; 8; 9; 10; 11; 12; 13; 14] = true) by (vm_compute; reflexivity).
  rewrite forallb_forall in T.
  assert (U : exists k, 0 <= k <= 14 /\ smear v = Z.ones k /\ v + 1 <= 2 ^ k).
  { destruct (Z.eq_dec v 0) as [->|N]; [exists 0; split; [lia|split; [reflexivity|cbn; lia]]|].
    exists (Z.log2 v + 1). pose proof (Z.log2_nonneg v). assert (Z.log2 v < 14) by (apply Z.log2_lt_pow2; lia).
    split; [lia|]. split; [apply smear_ones; lia|]. pose proof (Z.log2_spec v ltac:(lia)). replace (Z.log2 v + 1) with (Z.succ (Z.log2 v)) by lia. lia. }
  destruct U as (k & K & -> & P). specialize (T k ltac:(cbn; lia)). apply andb_prop in T. destruct T as [T1 T2].
  apply Nat.ltb_lt in T1. apply Z.leb_le in T2. split; [exact T1|lia].
Qed.

(* --- regions --- *)
Definition disj (a b : Z * Z) : Prop := fst a + snd a <= fst b \/ fst b + snd b <= fst a.
Lemma disj_sym a b : disj a b -> disj b a.
Proof. unfold disj. tauto. Qed.
Inductive Sep : list (Z * Z) -> Prop :=
| Sep_nil : Sep []
| Sep_cons x l : Forall (disj x) l -> Sep l -> Sep (x :: l).
Lemma Sep_perm l l' : Permutation l l' -> Sep l -> Sep l'.
Proof.
  induction 1; intros HS; auto.
  - inversion_clear HS as [|? ? F S]. constructor; auto. eapply Permutation_Forall; eauto.
  - inversion_clear HS as [|? ? F S]. inversion_clear S as [|? ? F' S']. inversion_clear F as [|? ? D F''].
    constructor; [constructor; [apply disj_sym; auto|auto]|constructor; auto].
Qed.
Definition good (mp : Z -> bool) (e : Z * Z) : Prop :=
  0 < fst e /\ 0 < snd e /\ fst e mod Pagesz = 0 /\ snd e mod Pagesz = 0 /\ forall a, fst e <= a < fst e + snd e -> mp a = true.
Definition Ext (mp : Z -> bool) (l : list (Z * Z)) : Prop := Sep l /\ Forall (good mp) l.
Lemma Ext_perm mp l l' : Permutation l l' -> Ext mp l -> Ext mp l'.
Proof. intros P [S F]. split; [eapply Sep_perm; eauto|eapply Permutation_Forall; eauto]. Qed.
Lemma Ext_in mp l x : Ext mp l -> In x l -> good mp x.
Proof. intros [_ F] I. rewrite Forall_forall in F. auto. Qed.
Lemma Sep_in l x y : Sep l -> In x l -> In y l -> x = y \/ disj x y.
Proof.
  induction 1 as [|z l F S IH]; intros Hx Hy; [contradiction|]. rewrite Forall_forall in F.
  destruct Hx as [->|Hx], Hy as [->|Hy]; auto. right. apply disj_sym. auto.
Qed.
(* new memory *)
Lemma Ext_add mp n p l : 0 < p -> p mod Pagesz = 0 -> 0 < n -> n mod Pagesz = 0 -> (forall a, p <= a < p + n -> mp a = false) ->
  Ext mp l -> Ext (fun a => mp a || within p n a) ((p, n) :: l).
Proof.
  intros P M N NM U [S F]. split.
  - constructor; auto. apply Forall_forall. intros [q k] Hin. rewrite Forall_forall in F.
    destruct (F _ Hin) as (A & B & _ & _ & C). cbn [fst snd] in *. unfold disj. cbn [fst snd].
    destruct (Z_le_gt_dec (p + n) q); auto. destruct (Z_le_gt_dec (q + k) p); auto. exfalso.
    pose proof (C (Z.max p q) ltac:(lia)). rewrite U in H by lia. discriminate H.
  - constructor.
    + unfold good. cbn [fst snd]. repeat split; auto. intros a Ha. unfold within.
      rewrite (proj2 (Z.leb_le p a)), (proj2 (Z.ltb_lt a (p + n))) by lia. apply orb_true_r.
    + eapply Forall_impl; [|exact F]. intros e (A & B & C & D & G). repeat split; auto. intros a Ha. rewrite G by auto. auto.
Qed.
(* unmapping a region *)
Lemma Ext_del mp e l : Ext mp (e :: l) -> Ext (fun a => mp a && negb (within (fst e) (snd e) a)) l.
Proof.
  intros [S F]. inversion_clear S as [|? ? D S']. inversion_clear F as [|? ? _ F']. split; auto.
  apply Forall_forall. intros x Hx. rewrite Forall_forall in D, F'. destruct (F' x Hx) as (A & B & C & P & G).
  repeat split; auto. intros a Ha. rewrite G by auto. pose proof (D x Hx) as X. unfold disj in X. unfold within.
  destruct (Z.leb_spec (fst e) a), (Z.ltb_spec a (fst e + snd e)); auto; lia.
Qed.
Lemma Ext_tail mp e l : Ext mp (e :: l) -> Ext mp l.
Proof. intros [S F]. inversion_clear S. inversion_clear F. split; auto. Qed.

(* --- lists in memory --- *)
Fixpoint chain (m : Z -> Z) (l : list Z) (h : Z) : Prop :=
  match l with [] => h = 0 | c :: l => h = c /\ c <> 0 /\ chain m l (m c) end.
Fixpoint dll (m : Z -> Z) (pv : Z) (l : list Z) (h : Z) : Prop :=
  match l with [] => h = 0 | s :: l => h = s /\ s <> 0 /\ m (s + oprev) = pv /\ dll m s l (m (s + onext)) end.
Fixpoint sll (m : Z -> Z) (l : list Z) (h : Z) : Prop :=
  match l with [] => h = 0 | s :: l => h = s /\ s <> 0 /\ m (s + oprev) = 0 /\ sll m l (m (s + onext)) end.
Lemma chain_frame m m' l : forall h, (forall c, In c l -> m' c = m c) -> chain m l h -> chain m' l h.
Proof.
  induction l as [|c l IH]; cbn; intros h F C; auto. destruct C as (-> & N & C). repeat split; auto. rewrite F by auto. apply IH; auto.
Qed.
Lemma dll_frame m m' l : forall pv h, (forall s, In s l -> m' (s + onext) = m (s + onext) /\ m' (s + oprev) = m (s + oprev)) ->
  dll m pv l h -> dll m' pv l h.
Proof.
  induction l as [|s l IH]; cbn; intros pv h F C; auto. destruct C as (-> & N & P & C). destruct (F s) as [E1 E2]; auto.
  rewrite E1, E2. repeat split; auto.
Qed.
Lemma sll_frame m m' l : forall h, (forall s, In s l -> m' (s + onext) = m (s + onext) /\ m' (s + oprev) = m (s + oprev)) ->
  sll m l h -> sll m' l h.
Proof.
  induction l as [|s l IH]; cbn; intros h F C; auto. destruct C as (-> & N & P & C). destruct (F s) as [E1 E2]; auto.
  rewrite E1, E2. repeat split; auto.
Qed.

(* --- slabs --- *)
Definition ischunk (i : nat) (s c : Z) : Prop := exists k, 0 <= k < nper i /\ c = s + 48 + k * bsz i.
Lemma ischunk_range i s c : (i < nbkts)%nat -> ischunk i s c -> s + 48 <= c /\ c + bsz i <= s + Slabsz /\ (c - s) mod 16 = 0.
Proof.
  intros H (k & R & ->). destruct (bkt_facts i H) as (A & B & C & D). split; [nia|]. split; [nia|].
  replace (s + 48 + k * bsz i - s) with (k * bsz i + 3 * 16) by lia. rewrite Z.mod_add by lia.
  rewrite Z.mul_mod, C, Z.mul_0_r by lia. reflexivity.
Qed.
Lemma ischunk_apart i s c c' : (i < nbkts)%nat -> ischunk i s c -> ischunk i s c' -> c = c' \/ c + bsz i <= c' \/ c' + bsz i <= c.
Proof.
  intros H (k & R & ->) (k' & R' & ->). destruct (bkt_facts i H) as (A & B & C & D).
  destruct (Z.lt_trichotomy k k') as [L|[->|L]]; [right; left; nia|left; auto|right; right; nia].
Qed.
Definition allchunks (i : nat) (s : Z) : list Z := map (fun k => s + 48 + Z.of_nat k * bsz i) (seq 0 (Z.to_nat (nper i))).
Lemma in_allchunks i s c : ischunk i s c <-> In c (allchunks i s).
Proof.
  unfold allchunks. rewrite in_map_iff. split.
  - intros (k & R & ->). exists (Z.to_nat k). rewrite Z2Nat.id by lia. split; auto. apply in_seq. lia.
  - intros (k & <- & Hk). apply in_seq in Hk. exists (Z.of_nat k). split; auto. lia.
Qed.
Lemma NoDup_map_inj {A B} (f : A -> B) l : (forall x y, In x l -> In y l -> f x = f y -> x = y) -> NoDup l -> NoDup (map f l).
Proof.
  intros I H. induction H as [|x l N H IH]; cbn; constructor.
  - intros C. apply in_map_iff in C as (y & E & Hy). apply N. rewrite (I x y); cbn; auto.
  - apply IH. intros. apply I; cbn; auto.
Qed.
Lemma allchunks_nodup i s : (i < nbkts)%nat -> NoDup (allchunks i s).
Proof.
  intros H. destruct (bkt_facts i H) as (A & B & C & D). apply NoDup_map_inj; [|apply seq_NoDup]. intros x y _ _ E. nia.
Qed.
Lemma allchunks_len i s : (i < nbkts)%nat -> Z.of_nat (length (allchunks i s)) = nper i.
Proof. intros H. destruct (bkt_facts i H). unfold allchunks. rewrite map_length, seq_length. lia. Qed.
(* when all chunks but one are free, no other chunk is in use *)
Lemma last_chunk i s fl c c' : (i < nbkts)%nat -> NoDup fl -> Forall (ischunk i s) fl -> Z.of_nat (length fl) = nper i - 1 ->
  ischunk i s c -> ~ In c fl -> ischunk i s c' -> ~ In c' fl -> c' = c.
Proof.
  intros H N F L Hc Nc Hc' Nc'. destruct (Z.eq_dec c' c) as [|Ne]; auto. exfalso.
  assert (ND : NoDup (c' :: c :: fl)).
  { constructor; [intros [E|E]; [congruence|contradiction]|]. constructor; auto. }
  assert (I : incl (c' :: c :: fl) (allchunks i s)).
  { intros x [<-|[<-|Hx]]; try (apply in_allchunks; auto). rewrite Forall_forall in F. auto. }
  pose proof (NoDup_incl_length ND I) as X. pose proof (allchunks_len i s H). cbn [length] in X. lia.
Qed.

Definition slabok (m : Z -> Z) (i : nat) (s h : Z) (fl : list Z) : Prop :=
  m (s + ohead) = h /\ chain m fl (m (s + ofreehd)) /\ m (s + onfree) = Z.of_nat (length fl) /\ m (s + omagic) = magic /\
  s mod Slabsz = 0 /\ h <= s /\ s + Slabsz <= h + Slabsz * 2 /\ NoDup fl /\ Forall (ischunk i s) fl.
Lemma slabok_frame m m' i s h fl : (i < nbkts)%nat ->
  (forall a, s <= a < s + Slabsz -> a <> s + onext -> a <> s + oprev -> m' a = m a \/ (ischunk i s a /\ ~ In a fl)) ->
  slabok m i s h fl -> slabok m' i s h fl.
Proof.
  intros Hi F (A & B & C & D & E & G & K & L & M).
  assert (Hd : forall o, 0 <= o < 48 -> o <> onext -> o <> oprev -> m' (s + o) = m (s + o)).
  { intros o Ho N1 N2. destruct (F (s + o)) as [|[Hc _]]; auto; try (unfold Slabsz; lia). apply ischunk_range in Hc; [lia|auto]. }
  unfold slabok. rewrite !Hd by (unfold ohead, ofreehd, onfree, omagic, onext, oprev; lia). repeat split; auto.
  eapply chain_frame; [|exact B]. intros c Hc. rewrite Forall_forall in M. pose proof (ischunk_range i s c Hi (M c Hc)).
  destruct (bkt_facts i Hi) as (_ & _ & _ & Bz).
  destruct (F c) as [|[_ X]]; auto; try (unfold onext, oprev; lia); contradiction.
Qed.

(* --- the invariant --- *)
(* the slabs, their buckets, the addresses the system returned for them, their free chunks, and the two lists of each bucket *)
Record ghost := { g_all : list Z; g_bk : Z -> nat; g_hd : Z -> Z; g_fl : Z -> list Z; g_parts : nat -> list Z; g_caches : nat -> list Z }.
Definition slabext (g : ghost) (s : Z) : Z * Z := (g_hd g s, Slabsz * 2).
Definition cachext (c : Z * Z) : list (Z * Z) := if 0 <? fst c then [(snd c, fst c)] else [].
Definition liveext (b : Z * Z) : list (Z * Z) := if snd b <=? Bktmax then [] else [(fst b, align (snd b) Pagesz)].
Definition extents (g : ghost) (bg lv pd : list (Z * Z)) : list (Z * Z) :=
  map (slabext g) (g_all g) ++ flat_map cachext bg ++ flat_map liveext lv ++ pd.
Definition small (b : Z * Z) : bool := snd b <=? Bktmax.
Definition liveok (all : list Z) (bk : Z -> nat) (fl : Z -> list Z) (caches : nat -> list Z) (b : Z * Z) : Prop :=
  0 <= snd b /\ (snd b <= Bktmax -> exists s, In s all /\ bk s = bktnum (snd b) /\ ischunk (bk s) s (fst b) /\ ~ In (fst b) (fl s) /\
                                              ~ In s (caches (bk s))).
Record Inv (g : ghost) (h : st) (lv pd : list (Z * Z)) : Prop := {
  v_nodup : NoDup (g_all g);
  v_slab : forall s, In s (g_all g) -> (g_bk g s < nbkts)%nat /\ slabok (mem h) (g_bk g s) s (g_hd g s) (g_fl g s);
  v_len : length (bkts h) = nbkts;
  v_bkt : forall i, (i < nbkts)%nat -> let b := nth i (bkts h) bkt0 in
    dll (mem h) 0 (g_parts g i) (b_slabs b) /\ sll (mem h) (g_caches g i) (b_cache b) /\
    b_ncache b = Z.of_nat (length (g_caches g i));
  v_parts : forall i s, (i < nbkts)%nat -> In s (g_parts g i) -> In s (g_all g) /\ g_bk g s = i /\ g_fl g s <> [];
  v_partsnd : forall i, (i < nbkts)%nat -> NoDup (g_parts g i);
  v_caches : forall i s, (i < nbkts)%nat -> In s (g_caches g i) -> In s (g_all g) /\ g_bk g s = i /\ g_fl g s <> [] /\ ~ In s (g_parts g i);
  v_cachesnd : forall i, (i < nbkts)%nat -> NoDup (g_caches g i);
  v_where : forall s, In s (g_all g) -> In s (g_parts g (g_bk g s)) \/ In s (g_caches g (g_bk g s)) \/ g_fl g s = [];
  v_ext : Ext (mapped h) (extents g (big h) lv pd);
  v_big : Forall (fun c => 0 <= fst c /\ (fst c = 0 -> snd c = 0)) (big h);
  v_live : forall b, In b lv -> liveok (g_all g) (g_bk g) (g_fl g) (g_caches g) b;
  v_small : NoDup (map fst (filter small lv))
}.

Lemma inv_slab g h lv pd s : Inv g h lv pd -> In s (g_all g) ->
  0 < s /\ s mod Slabsz = 0 /\ (forall a, s <= a < s + Slabsz -> mapped h a = true).
Proof.
  intros V I. destruct (v_slab _ _ _ _ V s I) as (_ & A & _ & _ & _ & B & C & D & _).
  assert (G : good (mapped h) (slabext g s)).
  { eapply Ext_in; [apply (v_ext _ _ _ _ V)|]. unfold extents. apply in_or_app. left. apply in_map. auto. }
  destruct G as (G1 & _ & _ & _ & G2). unfold slabext in *. cbn [fst snd] in *. unfold Slabsz in *. split; [lia|]. split; auto.
  intros a Ha. apply G2. lia.
Qed.
Lemma slabs_apart s s' : s mod Slabsz = 0 -> s' mod Slabsz = 0 -> s <> s' -> s + Slabsz <= s' \/ s' + Slabsz <= s.
Proof.
  intros A B N. unfold Slabsz in *. pose proof (Z.div_mod s (512 * 1024) ltac:(lia)). pose proof (Z.div_mod s' (512 * 1024) ltac:(lia)). nia.
Qed.

Definition smem (h : st) (m : Z -> Z) : st := {| mem := m; mapped := mapped h; bkts := bkts h; big := big h |}.
Definition sbkt (h : st) (m : Z -> Z) (i : nat) (b : bucket) : st :=
  {| mem := m; mapped := mapped h; bkts := upd (bkts h) i b; big := big h |}.
Definition fset {B} (f : Z -> B) (s : Z) (v : B) : Z -> B := fun x => if x =? s then v else f x.
Definition nset {B} (f : nat -> B) (i : nat) (v : B) : nat -> B := fun x => if (x =? i)%nat then v else f x.
Lemma fset_same {B} (f : Z -> B) s v : fset f s v s = v.
Proof. unfold fset. rewrite Z.eqb_refl. auto. Qed.
Lemma fset_other {B} (f : Z -> B) s v x : x <> s -> fset f s v x = f x.
Proof. unfold fset. intros. rewrite (proj2 (Z.eqb_neq _ _)); auto. Qed.
Lemma nset_same {B} (f : nat -> B) s v : nset f s v s = v.
Proof. unfold nset. rewrite Nat.eqb_refl. auto. Qed.
Lemma nset_other {B} (f : nat -> B) s v x : x <> s -> nset f s v x = f x.
Proof. unfold nset. intros. rewrite (proj2 (Nat.eqb_neq _ _)); auto. Qed.
Lemma mupd_same m a v : mupd m a v a = v.
Proof. unfold mupd. rewrite Z.eqb_refl. auto. Qed.
Lemma mupd_other m a v x : x <> a -> mupd m a v x = m x.
Proof. unfold mupd. intros. rewrite (proj2 (Z.eqb_neq _ _)); auto. Qed.

(* one slab s of bucket i and the lists of that bucket change *)
Definition gset (g : ghost) (i : nat) (s : Z) (fl parts caches : list Z) : ghost :=
  {| g_all := g_all g; g_bk := g_bk g; g_hd := g_hd g; g_fl := fset (g_fl g) s fl;
     g_parts := nset (g_parts g) i parts; g_caches := nset (g_caches g) i caches |}.
Lemma Inv_local g h lv pd i s m' b fl parts caches lv' :
  Inv g h lv pd -> (i < nbkts)%nat -> In s (g_all g) -> g_bk g s = i ->
  (forall s' a, In s' (g_all g) -> s' <> s -> s' <= a < s' + Slabsz -> a <> s' + onext -> a <> s' + oprev -> m' a = mem h a) ->
  (forall s', In s' (g_all g) -> g_bk g s' <> i -> m' (s' + onext) = mem h (s' + onext) /\ m' (s' + oprev) = mem h (s' + oprev)) ->
  slabok m' i s (g_hd g s) fl ->
  dll m' 0 parts (b_slabs b) -> sll m' caches (b_cache b) -> b_ncache b = Z.of_nat (length caches) ->
  (forall x, In x parts -> In x (g_all g) /\ g_bk g x = i /\ fset (g_fl g) s fl x <> []) -> NoDup parts ->
  (forall x, In x caches -> In x (g_all g) /\ g_bk g x = i /\ fset (g_fl g) s fl x <> [] /\ ~ In x parts) -> NoDup caches ->
  (forall x, In x (g_all g) -> g_bk g x = i -> In x parts \/ In x caches \/ fset (g_fl g) s fl x = []) ->
  flat_map liveext lv' = flat_map liveext lv ->
  (forall b, In b lv' -> liveok (g_all g) (g_bk g) (fset (g_fl g) s fl) (nset (g_caches g) i caches) b) ->
  NoDup (map fst (filter small lv')) ->
  Inv (gset g i s fl parts caches) (sbkt h m' i b) lv' pd.
Proof.
  intros V Hi Is Bs Fm Fl Ok Dl Sl Nc Hp NDp Hc NDc Hw El Hl NDl. unfold gset, sbkt.
  constructor; cbn [g_all g_bk g_hd g_fl g_parts g_caches mem mapped bkts big].
  - apply (v_nodup _ _ _ _ V).
  - intros x Hx. destruct (v_slab _ _ _ _ V x Hx) as (B & O). split; auto.
    destruct (Z.eq_dec x s) as [->|N]; [rewrite fset_same, Bs; auto|]. rewrite fset_other by auto.
    eapply slabok_frame; [auto| |exact O]. intros a Ha N1 N2. left. eapply Fm; eauto.
  - rewrite upd_length. apply (v_len _ _ _ _ V).
  - intros j Hj. destruct (Nat.eq_dec j i) as [->|N].
    + rewrite !nset_same, nth_upd_same by (rewrite (v_len _ _ _ _ V); auto). auto.
    + rewrite !nset_other, nth_upd_other by auto. destruct (v_bkt _ _ _ _ V j Hj) as (A & B & C). cbn zeta in *.
      split; [|split; auto].
      * eapply dll_frame; [|exact A]. intros x Hx. apply (v_parts _ _ _ _ V) in Hx as (P & Q & _); auto. apply Fl; auto. congruence.
      * eapply sll_frame; [|exact B]. intros x Hx. apply (v_caches _ _ _ _ V) in Hx as (P & Q & _); auto. apply Fl; auto. congruence.
  - intros j x Hj Hx. destruct (Nat.eq_dec j i) as [->|N].
    + rewrite nset_same in Hx. auto.
    + rewrite nset_other in Hx by auto. destruct (v_parts _ _ _ _ V j x Hj Hx) as (P & Q & R). rewrite fset_other; auto. congruence.
  - intros j Hj. destruct (Nat.eq_dec j i) as [->|N]; [rewrite nset_same; auto|rewrite nset_other by auto; apply (v_partsnd _ _ _ _ V); auto].
  - intros j x Hj Hx. destruct (Nat.eq_dec j i) as [->|N].
    + rewrite nset_same in *. auto.
    + rewrite nset_other in * by auto. destruct (v_caches _ _ _ _ V j x Hj Hx) as (P & Q & R & T). rewrite fset_other; auto. congruence.
  - intros j Hj. destruct (Nat.eq_dec j i) as [->|N]; [rewrite nset_same; auto|rewrite nset_other by auto; apply (v_cachesnd _ _ _ _ V); auto].
  - intros x Hx. destruct (Nat.eq_dec (g_bk g x) i) as [E|N].
    + rewrite E, !nset_same. auto.
    + rewrite !nset_other, fset_other by congruence. apply (v_where _ _ _ _ V); auto.
  - pose proof (v_ext _ _ _ _ V) as E. unfold extents in *. cbn [g_all]. rewrite El. exact E.
  - apply (v_big _ _ _ _ V).
  - exact Hl.
  - exact NDl.
Qed.

Lemma bind_load {B} a (k : Z -> act B) h : mapped h a = true -> bind (load a) k h = k (mem h a) h.
Proof. intros H. unfold bind, load. rewrite H. auto. Qed.
Lemma bind_store {B} a v (k : unit -> act B) h : mapped h a = true -> bind (store a v) k h = k tt (smem h (mupd (mem h) a v)).
Proof. intros H. unfold bind, store. rewrite H. auto. Qed.
Lemma bind_getb {B} i (k : bucket -> act B) h : bind (getb i) k h = k (nth i (bkts h) bkt0) h.
Proof. auto. Qed.
Lemma bind_ret {A B} (a : A) (k : A -> act B) h : bind (ret a) k h = k a h.
Proof. auto. Qed.
Lemma bind_bind {A B C} (a : act A) (f : A -> act B) (k : B -> act C) h : bind (bind a f) k h = bind a (fun x => bind (f x) k) h.
Proof. unfold bind. destruct (a h); auto. Qed.
Definition newmem (h : st) (fill : Z -> Z) (p n : Z) : st :=
  {| mem := fun a => if within p n a then fill a else mem h a; mapped := fun a => mapped h a || within p n a; bkts := bkts h; big := big h |}.
Lemma bind_getmem {B} os fill n p (k : option Z -> act B) h : os n = Some p ->
  bind (getmem os fill n) k h = k (Some p) (newmem h fill p n).
Proof. intros E. unfold bind, getmem. rewrite E. auto. Qed.
Lemma bind_nomem {B} os fill n (k : option Z -> act B) h : os n = None -> bind (getmem os fill n) k h = k None h.
Proof. intros E. unfold bind, getmem. rewrite E. auto. Qed.
Definition wslabs (b : bucket) (v : Z) : bucket := {| b_slabs := v; b_cache := b_cache b; b_ncache := b_ncache b |}.
Lemma bind_setslabs {B} i v (k : unit -> act B) h : bind (setslabs i v) k h = k tt (sbkt h (mem h) i (wslabs (nth i (bkts h) bkt0) v)).
Proof. auto. Qed.
Definition wcache (b : bucket) (v n : Z) : bucket := {| b_slabs := b_slabs b; b_cache := v; b_ncache := n |}.
Lemma bind_setcache {B} i v n (k : unit -> act B) h : bind (setcache i v n) k h = k tt (sbkt h (mem h) i (wcache (nth i (bkts h) bkt0) v n)).
Proof. auto. Qed.

(* --- where live blocks are --- *)
Lemma live_where g h lv pd b a : Inv g h lv pd -> In b lv -> inblock b a ->
  (exists s, In s (g_all g) /\ s + 48 <= a < s + Slabsz /\ ischunk (g_bk g s) s (fst b) /\ ~ In (fst b) (g_fl g s) /\
             fst b <= a < fst b + bsz (g_bk g s)) \/
  (In (fst b, align (snd b) Pagesz) (flat_map liveext lv) /\ fst b <= a < fst b + align (snd b) Pagesz).
Proof.
  intros V Hb Ha. unfold inblock in Ha. destruct (v_live _ _ _ _ V b Hb) as (Z0 & Sm).
  destruct (Z_le_gt_dec (snd b) Bktmax) as [L|L].
  - left. destruct (Sm L) as (s & Is & Bs & C & N & _). exists s. destruct (v_slab _ _ _ _ V s Is) as (Bi & _).
    pose proof (ischunk_range _ _ _ Bi C). destruct (bktnum_ok (snd b)) as (_ & X); [lia|]. rewrite <- Bs in X.
    repeat split; auto; try lia.
  - right. split; [|pose proof (align_page (snd b)); lia]. apply in_flat_map. exists b. split; auto. unfold liveext.
    rewrite (proj2 (Z.leb_gt _ _)) by lia. left. auto.
Qed.
Lemma ext_slab_live g h lv pd s e : Inv g h lv pd -> In s (g_all g) -> In e (flat_map liveext lv) -> disj (slabext g s) e.
Proof.
  intros V Is Ie. pose proof (v_ext _ _ _ _ V) as [S _]. unfold extents in S. apply in_split in Is as (l1 & l2 & E).
  rewrite E, map_app in S. cbn [map] in S. rewrite <- app_assoc in S. cbn [app] in S.
  apply (Sep_perm _ (slabext g s :: map (slabext g) l1 ++ map (slabext g) l2 ++ flat_map cachext (big h) ++ flat_map liveext lv ++ pd)) in S.
  - inversion_clear S as [|? ? F _]. rewrite Forall_forall in F. apply F. rewrite !in_app_iff. auto.
  - symmetry. apply Permutation_cons_app. reflexivity.
Qed.
(* what the allocator itself uses: the heads of slabs and free chunks *)
Definition meta (g : ghost) (a : Z) : Prop :=
  exists s, In s (g_all g) /\ (s <= a < s + 48 \/ In a (g_fl g s)).
Lemma meta_not_live g h lv pd a b : Inv g h lv pd -> meta g a -> In b lv -> inblock b a -> False.
Proof.
  intros V (s & Is & M) Hb Ha. destruct (v_slab _ _ _ _ V s Is) as (Bi & Ok).
  assert (R : s <= a < s + Slabsz).
  { destruct M as [M|M]; [unfold Slabsz; lia|]. destruct Ok as (_ & _ & _ & _ & _ & _ & _ & _ & F). rewrite Forall_forall in F.
    pose proof (ischunk_range _ _ _ Bi (F a M)). destruct (bkt_facts _ Bi). lia. }
  destruct (live_where _ _ _ _ b a V Hb Ha) as [(s' & Is' & R' & C & N & R'')|(E & R')].
  - destruct (Z.eq_dec s s') as [->|Ne].
    + destruct M as [M|M]; [lia|]. destruct Ok as (_ & _ & _ & _ & _ & _ & _ & _ & F). rewrite Forall_forall in F.
      pose proof (bkt_facts _ Bi). destruct (ischunk_apart _ _ _ _ Bi C (F a M)) as [X|[X|X]]; try lia. congruence.
    + destruct (slabs_apart s s'); auto; try lia; eapply inv_slab; eauto.
  - pose proof (ext_slab_live _ _ _ _ s _ V Is E) as D. unfold disj, slabext in D. cbn [fst snd] in D.
    destruct Ok as (_ & _ & _ & _ & _ & K1 & K2 & _). lia.
Qed.
Definition keeps (lv : list (Z * Z)) (h h' : st) : Prop := forall b a, In b lv -> inblock b a -> mem h' a = mem h a.

(* --- taking the first chunk of a slab --- *)
Ltac offs := unfold ohead, onext, oprev, ofreehd, onfree, omagic in *.
Lemma chain_head m l h : chain m l h -> h = 0 -> l = [].
Proof. destruct l; cbn; auto. intros (-> & N & _) E. contradiction. Qed.
Lemma upd_upd {A} (l : list A) i x y : upd (upd l i x) i y = upd l i y.
Proof. revert i. induction l as [|a l IH]; intros [|i]; cbn; auto. f_equal. auto. Qed.

Lemma grab_ok g h lv pd i s rest sz : Inv g h lv pd -> (i < nbkts)%nat -> g_parts g i = s :: rest ->
  0 <= sz <= Bktmax -> bktnum sz = i ->
  exists c h' g', grab i s h = Ok c h' /\ Inv g' h' ((c, sz) :: lv) pd /\ keeps lv h h'.
Proof.
  intros V Hi Hp Hsz Hb.
  destruct (v_parts _ _ _ _ V i s Hi) as (Is & Bs & Ne); [rewrite Hp; left; auto|].
  destruct (v_slab _ _ _ _ V s Is) as (_ & Ok). rewrite Bs in Ok.
  destruct (inv_slab _ _ _ _ s V Is) as (Ps & Ms & Mp).
  destruct (g_fl g s) as [|c fl] eqn:Efl; [contradiction|].
  pose proof Ok as (O1 & O2 & O3 & O4 & _ & O6 & O7 & O8 & O9).
  cbn [chain] in O2. destruct O2 as (Hc & C0 & Ch).
  inversion_clear O9 as [|? ? Cc Cfl]. inversion_clear O8 as [|? ? Nc Nfl].
  pose proof (ischunk_range _ _ _ Hi Cc) as Rc. destruct (bkt_facts i Hi) as (_ & _ & _ & Bz).
  pose proof (v_bkt _ _ _ _ V i Hi) as (Dl & Sl & Nca). rewrite Hp in Dl. cbn [dll] in Dl. destruct Dl as (Dh & _ & Dp & Dl).
  pose proof (v_partsnd _ _ _ _ V i Hi) as NDp. rewrite Hp in NDp. inversion_clear NDp as [|? ? Nsr NDr].
  unfold grab. rewrite bind_load by (apply Mp; offs; unfold Slabsz; lia). rewrite Hc.
  rewrite bind_load by (apply Mp; lia).
  rewrite bind_store by (apply Mp; offs; unfold Slabsz; lia).
  rewrite bind_load by (apply Mp; offs; unfold Slabsz; lia).
  rewrite bind_store by (apply Mp; offs; unfold Slabsz; lia).
  cbn [smem mem mapped bkts big]. set (nx := mem h c) in *.
  rewrite (mupd_other (mem h) _ _ (s + onfree)) by (offs; lia). rewrite O3. cbn [length].
  set (m1 := mupd (mupd (mem h) (s + ofreehd) nx) (s + onfree) (Z.of_nat (S (length fl)) - 1)).
  (* the other slabs keep their words, and this one loses its first free chunk *)
  assert (Fr : forall s' a, In s' (g_all g) -> s' <> s -> s' <= a < s' + Slabsz -> m1 a = mem h a).
  { intros s' a Is' Nq Ra. destruct (inv_slab _ _ _ _ s' V Is') as (_ & Ms' & _).
    pose proof (slabs_apart s s' Ms Ms' ltac:(auto)). unfold m1. unfold Slabsz in *. rewrite !mupd_other by (offs; lia). auto. }
  assert (Ok1 : slabok m1 i s (g_hd g s) fl).
  { unfold slabok, m1. split; [rewrite !mupd_other by (offs; lia); auto|].
    split.
    { rewrite (mupd_other _ _ _ (s + ofreehd)) by (offs; lia). rewrite mupd_same.
      eapply chain_frame; [|exact Ch]. intros x Hx. rewrite Forall_forall in Cfl. pose proof (ischunk_range _ _ _ Hi (Cfl x Hx)).
      rewrite !mupd_other by (offs; lia). auto. }
    split; [rewrite mupd_same; lia|]. split; [rewrite !mupd_other by (offs; lia); auto|].
    repeat split; auto. }
  assert (Lk : forall x, In x (g_all g) -> m1 (x + onext) = mem h (x + onext) /\ m1 (x + oprev) = mem h (x + oprev)).
  { intros x Hx. destruct (Z.eq_dec x s) as [->|Nx].
    - unfold m1. rewrite !mupd_other by (offs; lia). auto.
    - split; apply (Fr x); auto; offs; unfold Slabsz; lia. }
  assert (Csm : forall p, In p (filter small ((c, sz) :: lv)) -> True) by auto.
  assert (Live' : forall b, In b ((c, sz) :: lv) -> liveok (g_all g) (g_bk g) (fset (g_fl g) s fl) (g_caches g) b).
  { intros b [<-|Hb'].
    - split; [cbn; lia|]. intros _. exists s. cbn [fst snd]. rewrite fset_same, Bs. repeat split; auto.
      intros Hca. destruct (v_caches _ _ _ _ V i s Hi Hca) as (_ & _ & _ & X). apply X. rewrite Hp. left. auto.
    - destruct (v_live _ _ _ _ V b Hb') as (Z0 & Q). split; auto. intros L. destruct (Q L) as (x & A & B & C & D & E).
      exists x. repeat split; auto. destruct (Z.eq_dec x s) as [->|Nx]; [rewrite fset_same|rewrite fset_other; auto].
      intros X. apply D. rewrite Efl. right. auto. }
  assert (Small' : NoDup (map fst (filter small ((c, sz) :: lv)))).
  { cbn [filter]. unfold small at 1. cbn [snd]. rewrite (proj2 (Z.leb_le sz Bktmax)) by lia. cbn [map fst]. constructor; [|apply (v_small _ _ _ _ V)].
    intros X. apply in_map_iff in X as (b & E & Hb'). apply filter_In in Hb' as (Hb' & Sb). unfold small in Sb. apply Z.leb_le in Sb.
    destruct (v_live _ _ _ _ V b Hb') as (Z0 & Q). destruct (Q Sb) as (x & A & B & C & D & _). rewrite E in *.
    destruct (Z.eq_dec x s) as [->|Nx]; [apply D; rewrite Efl; left; auto|].
    destruct (v_slab _ _ _ _ V x A) as (Bx & _). pose proof (ischunk_range _ _ _ Bx C). pose proof (bkt_facts _ Bx).
    destruct (inv_slab _ _ _ _ x V A) as (_ & Mx & _). pose proof (slabs_apart s x Ms Mx ltac:(auto)). lia. }
  assert (Ext' : flat_map liveext ((c, sz) :: lv) = flat_map liveext lv).
  { cbn [flat_map]. unfold liveext at 1. cbn [snd]. rewrite (proj2 (Z.leb_le sz Bktmax)) by lia. auto. }
  assert (Mt : forall x o, In x (g_all g) -> 0 <= o < 48 -> forall b a, In b lv -> inblock b a -> a <> x + o).
  { intros x o Hx Ho b a Hb' Ha ->. eapply (meta_not_live g h lv pd (x + o) b); eauto. exists x. split; auto. left. lia. }
  assert (Kp : forall b a, In b lv -> inblock b a -> m1 a = mem h a).
  { intros b a Hb' Ha. unfold m1. rewrite !mupd_other; auto; eapply Mt; eauto; offs; lia. }
  destruct (Z.eqb_spec nx 0) as [E0|N0].
  - (* that was the last free chunk *)
    assert (fl = []) as -> by (eapply chain_head; eauto).
    rewrite bind_load by (apply Mp; offs; unfold Slabsz; lia). cbn [smem mem mapped bkts big].
    rewrite (proj1 (Lk s Is)). set (t := mem h (s + onext)) in *.
    rewrite bind_setslabs. set (b := wslabs (nth i (bkts h) bkt0) t).
    match goal with |- context [sbkt ?H ?M i ?B] => change (sbkt H M i B) with (sbkt h m1 i b) end.
    (* t is the next slab or null *)
    assert (Core : forall m', (forall x, In x (g_all g) -> x <> t \/ t = 0 -> m' (x + oprev) = mem h (x + oprev)) ->
       (t <> 0 -> m' (t + oprev) = 0) -> (forall a, (t = 0 \/ a <> t + oprev) -> m' a = m1 a) ->
       Inv (gset g i s [] rest (g_caches g i)) (sbkt h m' i b) ((c, sz) :: lv) pd).
    { intros m' H1 H2 H3.
      assert (Hrest : forall x, In x rest -> In x (g_all g) /\ g_bk g x = i /\ x <> s /\ g_fl g x <> []).
      { intros x Hx. destruct (v_parts _ _ _ _ V i x Hi) as (A & B & C); [rewrite Hp; right; auto|]. repeat split; auto.
        intros ->. contradiction. }
      assert (Tin : t <> 0 -> exists r, rest = t :: r).
      { intros Nt. destruct rest as [|x r]; cbn [dll] in Dl; [contradiction|]. destruct Dl as (-> & _). eauto. }
      assert (Tall : t <> 0 -> In t (g_all g) /\ g_bk g t = i /\ t <> s).
      { intros Nt. destruct (Tin Nt) as (r & ->). destruct (Hrest t) as (A & B & C & _); [left; auto|]. auto. }
      apply (Inv_local g h lv pd); auto.
      - intros s' a Is' Nq Ra N1 N2. rewrite H3; [apply (Fr s'); auto|]. destruct (Z.eq_dec t 0) as [|Nt]; auto. right. intros ->.
        destruct (Tall Nt) as (It & _ & Nts). destruct (Z.eq_dec s' t) as [->|Nst]; [contradiction|].
        pose proof (slabs_apart s' t ltac:(eapply inv_slab; eauto) ltac:(eapply inv_slab; eauto) Nst). offs. unfold Slabsz in *. lia.
      - intros s' Is' Nb. assert (s' <> t \/ t = 0).
        { destruct (Z.eq_dec t 0); auto. left. intros ->. destruct Tall as (_ & X & _); auto. }
        split; [|apply H1; auto]. rewrite H3; [apply Lk; auto|]. destruct H as [H|H]; auto. right. intros X.
        destruct (Z.eq_dec t 0) as [|Nt]; auto; [offs; destruct (inv_slab _ _ _ _ s' V Is'); unfold Slabsz in *|].
        + subst t. pose proof (inv_slab _ _ _ _ s' V Is') as (_ & Mm & _). rewrite e in X.
          assert (s' = 8) by lia. subst s'. unfold Slabsz in Mm. vm_compute in Mm. discriminate Mm.
        + destruct (Tall Nt) as (It & _). pose proof (slabs_apart s' t ltac:(eapply inv_slab; eauto) ltac:(eapply inv_slab; eauto) H).
          offs. unfold Slabsz in *. lia.
      - eapply slabok_frame; [auto| |exact Ok1]. intros a Ra N1 N2. left. apply H3. destruct (Z.eq_dec t 0) as [|Nt]; auto. right. intros ->.
        destruct (Tall Nt) as (It & _ & Nts). pose proof (slabs_apart t s ltac:(eapply inv_slab; eauto) Ms Nts). offs. unfold Slabsz in *. lia.
      - unfold b. cbn [wslabs b_slabs]. destruct rest as [|x r]; cbn [dll] in *; auto.
        destruct Dl as (-> & Nx0 & Px & Dl). rewrite H2 by auto. repeat split; auto.
        assert (E : m' (x + onext) = mem h (x + onext)).
        { rewrite H3 by (right; offs; lia). apply Lk. apply Hrest. left; auto. }
        rewrite E. eapply dll_frame; [|exact Dl]. intros y Hy. destruct (Hrest y) as (Iy & By & Nys & _); [right; auto|].
        assert (y <> x) by (intros ->; inversion_clear NDr; contradiction).
        split; [|apply H1; auto]. rewrite H3; [apply Lk; auto|]. right.
        pose proof (slabs_apart y x ltac:(eapply inv_slab; eauto) ltac:(eapply inv_slab; [eauto|apply Hrest; left; auto]) H). offs. unfold Slabsz in *. lia.
      - unfold b. cbn [wslabs b_cache]. eapply sll_frame; [|exact Sl]. intros y Hy.
        destruct (v_caches _ _ _ _ V i y Hi Hy) as (Iy & _ & _ & Np).
        assert (y <> t \/ t = 0).
        { destruct (Z.eq_dec t 0) as [|Nt]; auto. left. intros ->. destruct (Tin Nt) as (r & ->). apply Np. rewrite Hp. right; left; auto. }
        split; [|apply H1; auto]. rewrite H3; [apply Lk; auto|]. destruct (Z.eq_dec t 0) as [|Nt]; auto. destruct H as [H|H]; [|auto]. right.
        destruct (Tall Nt) as (It & _). pose proof (slabs_apart y t ltac:(eapply inv_slab; eauto) ltac:(eapply inv_slab; eauto) H). offs. unfold Slabsz in *. lia.
      - intros x Hx. destruct (Hrest x Hx) as (A & B & C & D). rewrite fset_other; auto.
      - intros x Hx. destruct (v_caches _ _ _ _ V i x Hi Hx) as (A & B & C & D). rewrite Hp in D.
        assert (x <> s) by (intros ->; apply D; left; auto). rewrite fset_other by auto. repeat split; auto. intros X. apply D. right; auto.
      - apply (v_cachesnd _ _ _ _ V); auto.
      - intros x Hx Bx. destruct (Z.eq_dec x s) as [->|Nx]; [right; right; apply fset_same|]. rewrite fset_other by auto.
        destruct (v_where _ _ _ _ V x Hx) as [W|[W|W]]; auto; rewrite Bx in W; auto. rewrite Hp in W. destruct W as [W|W]; auto. congruence.
      - intros x Hx. destruct (Live' x Hx) as (Z0 & Q). split; auto. intros L. destruct (Q L) as (y & A & B & C & D & E). exists y.
        repeat split; auto. unfold nset. destruct (Nat.eqb_spec (g_bk g y) i) as [Eq|]; [rewrite <- Eq|]; auto. }
    destruct (Z.eqb_spec t 0) as [T0|TN].
    + eexists c, _, _. split; [reflexivity|]. split; [apply Core; auto|].
      * intros x Hx _. apply Lk; auto.
      * intros; contradiction.
      * exact Kp.
    + assert (It : In t (g_all g) /\ t <> s).
      { destruct rest as [|x r]; cbn [dll] in Dl; [contradiction|]. destruct Dl as (Ex & _). fold t in Ex. subst x.
        destruct (v_parts _ _ _ _ V i t Hi) as (A & B & C); [rewrite Hp; right; left; auto|]. split; auto. intros E. apply Nsr. left. auto. }
      destruct It as (It & Nts).
      destruct (inv_slab _ _ _ _ t V It) as (_ & _ & Mpt).
      rewrite bind_store by (apply Mpt; offs; unfold Slabsz; lia).
      exists c, (sbkt h (mupd m1 (t + oprev) 0) i b), (gset g i s [] rest (g_caches g i)). split; [reflexivity|]. split.
      * change (Inv (gset g i s [] rest (g_caches g i)) (sbkt h (mupd m1 (t + oprev) 0) i b) ((c, sz) :: lv) pd). apply Core.
        -- intros x Hx [Nx|]; [|contradiction]. rewrite mupd_other by (offs; lia). apply Lk; auto.
        -- intros _. apply mupd_same.
        -- intros a [|Na]; [contradiction|]. apply mupd_other; auto.
      * intros b' a Hb' Ha. cbn [sbkt mem]. rewrite mupd_other; [eapply Kp; eauto|]. eapply Mt; eauto. offs; lia.
  - (* more free chunks are left *)
    exists c, (smem (smem h (mupd (mem h) (s + ofreehd) nx)) m1), (gset g i s fl (s :: rest) (g_caches g i)).
    split; [reflexivity|]. split; [|exact Kp].
    assert (Eb : smem (smem h (mupd (mem h) (s + ofreehd) nx)) m1 = sbkt h m1 i (nth i (bkts h) bkt0)).
    { unfold smem, sbkt. cbn [mapped bkts big]. rewrite upd_same. auto. }
    rewrite Eb. apply (Inv_local g h lv pd); auto.
    + intros s' a Is' Nq Ra _ _. eapply Fr; eauto.
    + eapply dll_frame; [|cbn [dll]; repeat split; eauto; lia]. intros y Hy. apply Lk. apply (v_parts _ _ _ _ V i y Hi). rewrite Hp. auto.
    + eapply sll_frame; [|exact Sl]. intros y Hy. apply Lk. apply (v_caches _ _ _ _ V i y Hi). auto.
    + intros x Hx. destruct (v_parts _ _ _ _ V i x Hi) as (A & B & C); [rewrite Hp; auto|]. repeat split; auto.
      destruct (Z.eq_dec x s) as [->|Nx]; [rewrite fset_same|rewrite fset_other; auto]. intros ->. cbn in Ch. contradiction.
    + constructor; auto.
    + intros x Hx. destruct (v_caches _ _ _ _ V i x Hi Hx) as (A & B & C & D). rewrite Hp in D.
      assert (x <> s) by (intros ->; apply D; left; auto). rewrite fset_other by auto. repeat split; auto.
    + apply (v_cachesnd _ _ _ _ V); auto.
    + intros x Hx Bx. destruct (Z.eq_dec x s) as [->|Nx]; [left; left; auto|]. rewrite fset_other by auto.
      destruct (v_where _ _ _ _ V x Hx) as [W|[W|W]]; auto; rewrite Bx in W; auto. rewrite Hp in W. auto.
    + intros x Hx. destruct (Live' x Hx) as (Z0 & Q). split; auto. intros L. destruct (Q L) as (y & A & B & C & D & E). exists y.
      repeat split; auto. unfold nset. destruct (Nat.eqb_spec (g_bk g y) i) as [Eq|]; [rewrite <- Eq|]; auto.
Qed.

(* --- a new slab --- *)
Lemma chunks_ok sz n : forall b bnext h, 0 < sz -> (forall k, 0 <= k < Z.of_nat n -> mapped h (bnext + k * sz) = true) ->
  exists m', chunks n sz b bnext h = Ok (if (n =? 0)%nat then b else bnext + (Z.of_nat n - 1) * sz) (smem h m') /\
    (forall k, 0 <= k < Z.of_nat n -> m' (bnext + k * sz) = bnext + (k + 1) * sz) /\
    (forall a, (forall k, 0 <= k < Z.of_nat n -> a <> bnext + k * sz) -> m' a = mem h a).
Proof.
  induction n as [|n IH]; intros b bnext h Hs Mp.
  - exists (mem h). split; [cbn; unfold ret, smem; destruct h; auto|]. split; [lia|auto].
  - cbn [chunks]. rewrite bind_store by (specialize (Mp 0); rewrite Z.mul_0_l, Z.add_0_r in Mp; apply Mp; lia).
    destruct (IH bnext (bnext + sz) (smem h (mupd (mem h) bnext (bnext + sz))) Hs) as (m' & E & A & B).
    { intros k Hk. cbn [smem mapped]. replace (bnext + sz + k * sz) with (bnext + (k + 1) * sz) by lia. apply Mp. lia. }
    exists m'. split; [|split].
    + rewrite E. cbn [smem mapped bkts big]. f_equal. change ((S n =? 0)%nat) with false. rewrite Nat2Z.inj_succ.
      clear. unfold Z.succ. destruct (Nat.eqb_spec n 0) as [E0|]; [rewrite E0; change (Z.of_nat 0) with 0; ring|ring].
    + intros k Hk. destruct (Z.eq_dec k 0) as [->|N].
      * rewrite B; [cbn [smem mem]; replace (bnext + 0 * sz) with bnext by lia; rewrite mupd_same; lia|]. intros k Hk'. nia.
      * replace (bnext + k * sz) with (bnext + sz + (k - 1) * sz) by lia. rewrite A by lia. lia.
    + intros a Ha. rewrite B.
      * cbn [smem mem]. apply mupd_other. specialize (Ha 0 ltac:(lia)). lia.
      * intros k Hk. specialize (Ha (k + 1) ltac:(lia)). lia.
Qed.
Lemma chain_seq m f n : forall j, (forall k, (j <= k < j + n)%nat -> f k <> 0) ->
  (forall k, (j <= k)%nat -> (S k < j + n)%nat -> m (f k) = f (S k)) -> (forall k, S k = (j + n)%nat -> m (f k) = 0) ->
  chain m (map f (seq j n)) (if (n =? 0)%nat then 0 else f j).
Proof.
  induction n as [|n IH]; intros j N0 Nx La; [reflexivity|]. cbn [seq map chain Nat.eqb]. split; auto. split; [apply N0; lia|].
  specialize (IH (S j)). destruct n as [|n].
  - cbn. apply La. lia.
  - rewrite Nx by lia. apply IH; intros; [apply N0|apply Nx|apply La]; lia.
Qed.

Definition gnew (g : ghost) (i : nat) (s p : Z) : ghost :=
  {| g_all := s :: g_all g; g_bk := fset (g_bk g) s i; g_hd := fset (g_hd g) s p; g_fl := fset (g_fl g) s (allchunks i s);
     g_parts := nset (g_parts g) i [s]; g_caches := g_caches g |}.

Lemma live_mapped g h lv pd b a : Inv g h lv pd -> In b lv -> inblock b a -> mapped h a = true.
Proof.
  intros V Hb Ha. destruct (live_where _ _ _ _ _ _ V Hb Ha) as [(s & Is & R & _)|(E & R)].
  - destruct (inv_slab _ _ _ _ s V Is) as (_ & _ & M). apply M. lia.
  - assert (G : good (mapped h) (fst b, align (snd b) Pagesz)).
    { eapply Ext_in; [apply (v_ext _ _ _ _ V)|]. unfold extents. rewrite !in_app_iff. auto. }
    apply G. cbn [fst snd]. exact R.
Qed.

Lemma mkslab_ok os fill g h lv pd i : Inv g h lv pd -> (i < nbkts)%nat -> b_slabs (nth i (bkts h) bkt0) = 0 -> os_ok os h ->
  (mkslab os fill i h = Die /\ os (Slabsz * 2) = None) \/
  exists s h' g', mkslab os fill i h = Ok s h' /\ g_parts g' i = [s] /\ keeps lv h h' /\
    Inv g' (sbkt h' (mem h') i (wslabs (nth i (bkts h') bkt0) s)) lv pd.
Proof.
  intros V Hi S0 Os. destruct (v_bkt _ _ _ _ V i Hi) as (Dl & Sl & Nc). cbn zeta in *. rewrite S0 in Dl.
  assert (P0 : g_parts g i = []) by (destruct (g_parts g i); auto; cbn in Dl; destruct Dl as (<- & N & _); contradiction).
  unfold mkslab. rewrite bind_getb. set (b := nth i (bkts h) bkt0) in *.
  destruct (Z.ltb_spec 0 (b_ncache b)) as [Nz|Nz].
  - (* from the cache *)
    right. destruct (g_caches g i) as [|s cs] eqn:Ec; [cbn in Nc; lia|]. cbn [sll] in Sl. destruct Sl as (Cs & Sn0 & Sp & Sl).
    destruct (v_caches _ _ _ _ V i s Hi) as (Is & Bs & Ne & _); [rewrite Ec; left; auto|].
    destruct (inv_slab _ _ _ _ s V Is) as (Ps & Ms & Mp).
    assert (NDc : NoDup (s :: cs)) by (rewrite <- Ec; apply (v_cachesnd _ _ _ _ V); auto).
    inversion_clear NDc as [|? ? Nsc NDcs].
    rewrite Cs. rewrite bind_load by (apply Mp; offs; unfold Slabsz; lia). rewrite bind_setcache.
    rewrite bind_store by (cbn [sbkt mapped]; apply Mp; offs; unfold Slabsz; lia).
    unfold ret. set (m1 := mupd (mem h) (s + onext) 0).
    exists s, (sbkt h m1 i (wcache b (mem h (s + onext)) (b_ncache b - 1))), (gset g i s (g_fl g s) [s] cs).
    split; [reflexivity|]. split; [apply nset_same|].
    assert (Lk : forall x, In x (g_all g) -> x <> s -> m1 (x + onext) = mem h (x + onext) /\ m1 (x + oprev) = mem h (x + oprev)).
    { intros x Hx Nx. pose proof (slabs_apart x s ltac:(eapply inv_slab; eauto) Ms Nx). unfold m1. unfold Slabsz in *. rewrite !mupd_other by (offs; lia). auto. }
    split.
    { intros b' a Hb' Ha. cbn [sbkt mem]. unfold m1. apply mupd_other. intros ->.
      eapply (meta_not_live g h lv pd (s + onext) b'); eauto. exists s. split; auto. left. offs. lia. }
    cbn [sbkt mem mapped bkts big]. rewrite nth_upd_same by (rewrite (v_len _ _ _ _ V); auto).
    unfold sbkt. cbn [mapped bkts big]. rewrite upd_upd.
    match goal with |- Inv ?G ?H _ _ => change (Inv G (sbkt h m1 i (wslabs (wcache b (mem h (s + onext)) (b_ncache b - 1)) s)) lv pd) end.
    assert (Fx : forall x, fset (g_fl g) s (g_fl g s) x = g_fl g x).
    { intros x. unfold fset. destruct (Z.eqb_spec x s) as [->|]; auto. }
    apply (Inv_local g h lv pd); auto.
    + intros s' a Is' Nq Ra N1 N2. unfold m1. apply mupd_other. intros ->.
      pose proof (slabs_apart s' s ltac:(eapply inv_slab; eauto) Ms Nq). offs. unfold Slabsz in *. lia.
    + intros s' Is' Nb. apply Lk; auto. intros ->. contradiction.
    + destruct (v_slab _ _ _ _ V s Is) as (_ & Ok). rewrite Bs in Ok. eapply slabok_frame; [auto| |exact Ok].
      intros a Ra N1 N2. left. unfold m1. apply mupd_other. auto.
    + cbn [wslabs wcache b_slabs dll]. repeat split; auto.
      * unfold m1. rewrite mupd_other by (offs; lia). auto.
      * unfold m1. apply mupd_same.
    + cbn [wslabs wcache b_cache]. eapply sll_frame; [|exact Sl]. intros y Hy. apply Lk.
      * apply (v_caches _ _ _ _ V i y Hi). rewrite Ec. right; auto.
      * intros ->. contradiction.
    + cbn [wslabs wcache b_ncache]. rewrite Nc. cbn [length]. lia.
    + intros x [<-|[]]. rewrite Fx. auto.
    + constructor; [auto|constructor].
    + intros x Hx. destruct (v_caches _ _ _ _ V i x Hi) as (A & B & C & D); [rewrite Ec; right; auto|]. rewrite Fx. repeat split; auto.
      intros [<-|[]]. contradiction.
    + intros x Hx Bx. rewrite Fx. destruct (v_where _ _ _ _ V x Hx) as [W|[W|W]]; auto; rewrite Bx in W.
      * rewrite P0 in W. contradiction.
      * rewrite Ec in W. destruct W as [<-|W]; auto. left. left. auto.
    + intros x Hx. destruct (v_live _ _ _ _ V x Hx) as (Z0 & Q). split; auto. intros L. destruct (Q L) as (y & A & B & C & D & E). exists y.
      rewrite Fx. repeat split; auto. unfold nset. destruct (Nat.eqb_spec (g_bk g y) i) as [Eq|]; auto. intros X. apply E. rewrite Eq, Ec. right; auto.
    + apply (v_small _ _ _ _ V).
  - (* from the system *)
    destruct (os (Slabsz * 2)) as [p|] eqn:Eo; [right|left; rewrite bind_nomem by auto; auto].
    destruct (Os _ _ Eo) as (Pp & Pm & Pu).
    pose proof (align_slab p) as (As & Am). set (s := align p Slabsz) in *.
    rewrite (bind_getmem _ _ _ p) by auto. cbv iota. cbv zeta. fold s.
    set (h1 := newmem h fill p (Slabsz * 2)).
    assert (Mp : forall a, s <= a < s + Slabsz -> mapped h1 a = true).
    { intros a Ha. unfold h1. cbn [newmem mapped]. unfold within. rewrite (proj2 (Z.leb_le p a)), (proj2 (Z.ltb_lt a (p + Slabsz * 2))) by (unfold Slabsz in *; lia). apply orb_true_r. }
    do 5 rewrite bind_store by (cbn [smem mapped]; apply Mp; offs; unfold Slabsz; lia).
    change (align sizeof_slab Align) with 48. cbn [smem mem mapped bkts big].
    destruct (bkt_facts i Hi) as (F1 & F2 & F3 & F4).
    match goal with |- context [bind (store (s + ofreehd) (s + 48)) _ ?H] => set (h2 := H) end.
    rewrite bind_store by (unfold h2; cbn [smem mapped]; apply Mp; offs; unfold Slabsz; lia).
    destruct (chunks_ok (bsz i) (Z.to_nat (nper i)) 0 (s + 48) (smem h2 (mupd (mem h2) (s + ofreehd) (s + 48)))) as (m3 & E3 & A3 & B3);
      [lia| |].
    { intros k Hk. unfold h2. cbn [smem mapped]. apply Mp. rewrite Z2Nat.id in Hk by lia. nia. }
    unfold bind at 1. rewrite E3. clear E3. rewrite Z2Nat.id in A3, B3 by lia.
    rewrite (proj2 (Nat.eqb_neq (Z.to_nat (nper i)) 0)) by lia. rewrite Z2Nat.id by lia.
    set (la := s + 48 + (nper i - 1) * bsz i).
    assert (Rla : s + 48 <= la < s + Slabsz) by (unfold la; nia).
    rewrite bind_store by (unfold h2; cbn [smem mapped]; apply Mp; unfold Slabsz in *; lia).
    cbn [smem mem mapped bkts big]. unfold ret. set (m4 := mupd m3 la 0).
    assert (Hd : forall o, 0 <= o < 48 -> m4 (s + o) = mupd (mem h2) (s + ofreehd) (s + 48) (s + o)).
    { intros o Ho. unfold m4. rewrite mupd_other by lia. rewrite B3; auto. intros k Hk. nia. }
    assert (Out : forall a, ~ (s <= a < s + Slabsz) -> m4 a = mem h1 a).
    { intros a Ha. unfold m4. rewrite mupd_other by lia. rewrite B3.
      - unfold h2. cbn [smem mem]. unfold Slabsz in *. rewrite !mupd_other by (offs; lia). auto.
      - intros k Hk. nia. }
    assert (Om : forall a, mapped h a = true -> m4 a = mem h a /\ ~ (p <= a < p + Slabsz * 2)).
    { intros a Ha. assert (N : ~ (p <= a < p + Slabsz * 2)) by (intros X; rewrite Pu in Ha by auto; discriminate Ha).
      split; auto. rewrite Out by (unfold Slabsz in *; lia). unfold h1. cbn [newmem mem]. unfold within.
      destruct (Z.leb_spec p a), (Z.ltb_spec a (p + Slabsz * 2)); auto. lia. }
    assert (Ns : ~ In s (g_all g)).
    { intros X. destruct (inv_slab _ _ _ _ s V X) as (_ & _ & Q). destruct (Om s) as (_ & Y); [apply Q; unfold Slabsz; lia|]. unfold Slabsz in *. lia. }
    assert (Lk : forall x, In x (g_all g) -> forall a, x <= a < x + Slabsz -> m4 a = mem h a).
    { intros x Hx a Ha. apply Om. destruct (inv_slab _ _ _ _ x V Hx) as (_ & _ & M). apply M. auto. }
    exists s, {| mem := m4; mapped := mapped h1; bkts := bkts h; big := big h |}, (gnew g i s p).
    split; [reflexivity|]. split; [apply nset_same|]. split.
    { intros b' a Hb' Ha. cbn [mem]. apply Om. eapply live_mapped; eauto. }
    unfold sbkt, gnew. cbn [mem mapped bkts big]. fold b.
    constructor; cbn [g_all g_bk g_hd g_fl g_parts g_caches mem mapped bkts big].
    + constructor; auto. apply (v_nodup _ _ _ _ V).
    + intros x [<-|Hx].
      * rewrite !fset_same. split; auto. unfold slabok.
        rewrite !Hd by (offs; lia). unfold h2; cbn [smem mem].
        repeat match goal with |- context [mupd ?M ?A ?B ?C] => first [rewrite (mupd_same M A B) | rewrite (mupd_other M A B C) by (offs; lia)] end.
        rewrite allchunks_len by auto. repeat split; auto; try (unfold Slabsz in *; lia).
        -- assert (X : chain m4 (map (fun k => s + 48 + Z.of_nat k * bsz i) (seq 0 (Z.to_nat (nper i))))
                      (if (Z.to_nat (nper i) =? 0)%nat then 0 else s + 48 + Z.of_nat 0 * bsz i)).
           { apply chain_seq.
             - intros k Hk. clear - As Pp F4. nia.
             - intros k _ Hk. unfold m4. rewrite mupd_other by (unfold la; clear - Hk F4 F1; nia). rewrite A3 by lia. lia.
             - intros k Hk. unfold m4. replace (Z.of_nat k) with (nper i - 1) by lia. apply mupd_same. }
           rewrite (proj2 (Nat.eqb_neq (Z.to_nat (nper i)) 0)) in X by lia. cbn [Z.of_nat] in X.
           replace (s + 48 + 0 * bsz i) with (s + 48) in X by lia. exact X.
        -- apply allchunks_nodup; auto.
        -- apply Forall_forall. intros c Hc. apply in_allchunks. auto.
      * assert (x <> s) by (intros ->; contradiction). rewrite !fset_other by auto.
        destruct (v_slab _ _ _ _ V x Hx) as (Bx & Ox). split; auto. eapply slabok_frame; [auto| |exact Ox].
        intros a Ra _ _. left. eapply Lk; eauto.
    + rewrite upd_length. apply (v_len _ _ _ _ V).
    + intros j Hj. destruct (Nat.eq_dec j i) as [->|N].
      * rewrite nset_same, nth_upd_same by (rewrite (v_len _ _ _ _ V); auto). cbn [wslabs b_slabs b_cache b_ncache dll].
        split; [|split; auto].
        -- repeat split; auto; try lia; rewrite Hd by (offs; lia); unfold h2; cbn [smem mem];
           repeat match goal with |- context [mupd ?M ?A ?B ?C] => first [rewrite (mupd_same M A B) | rewrite (mupd_other M A B C) by (offs; lia)] end; auto.
        -- eapply sll_frame; [|exact Sl]. intros y Hy. destruct (v_caches _ _ _ _ V i y Hi Hy) as (Iy & _).
           split; apply (Lk y); auto; offs; unfold Slabsz; lia.
      * rewrite nset_other, nth_upd_other by auto. destruct (v_bkt _ _ _ _ V j Hj) as (A & B & C). split; [|split; auto].
        -- eapply dll_frame; [|exact A]. intros y Hy. destruct (v_parts _ _ _ _ V j y Hj Hy) as (Iy & _).
           split; apply (Lk y); auto; offs; unfold Slabsz; lia.
        -- eapply sll_frame; [|exact B]. intros y Hy. destruct (v_caches _ _ _ _ V j y Hj Hy) as (Iy & _).
           split; apply (Lk y); auto; offs; unfold Slabsz; lia.
    + intros j x Hj Hx. destruct (Nat.eq_dec j i) as [->|N].
      * rewrite nset_same in Hx. destruct Hx as [<-|[]]. rewrite !fset_same. repeat split; [left; auto|].
        intros X. pose proof (allchunks_len i s Hi) as Y. rewrite X in Y. cbn in Y. lia.
      * rewrite nset_other in Hx by auto. destruct (v_parts _ _ _ _ V j x Hj Hx) as (A & B & C).
        assert (x <> s) by (intros ->; contradiction). rewrite !fset_other by auto. repeat split; auto. right; auto.
    + intros j Hj. destruct (Nat.eq_dec j i) as [->|N]; [rewrite nset_same; constructor; [auto|constructor]|].
      rewrite nset_other by auto. apply (v_partsnd _ _ _ _ V); auto.
    + intros j x Hj Hx. destruct (v_caches _ _ _ _ V j x Hj Hx) as (A & B & C & D).
      assert (x <> s) by (intros ->; contradiction). rewrite !fset_other by auto. repeat split; auto; [right; auto|].
      unfold nset. destruct (Nat.eqb_spec j i); auto. intros [X|[]]. congruence.
    + intros j Hj. apply (v_cachesnd _ _ _ _ V); auto.
    + intros x [<-|Hx]; [left; rewrite fset_same, nset_same; left; auto|].
      assert (x <> s) by (intros ->; contradiction). rewrite !fset_other by auto.
      destruct (v_where _ _ _ _ V x Hx) as [W|[W|W]]; auto. left. unfold nset. destruct (Nat.eqb_spec (g_bk g x) i) as [E|]; auto.
      rewrite E, P0 in W. contradiction.
    + unfold extents. cbn [g_all map].
      assert (Em : map (slabext {| g_all := s :: g_all g; g_bk := fset (g_bk g) s i; g_hd := fset (g_hd g) s p;
         g_fl := fset (g_fl g) s (allchunks i s); g_parts := nset (g_parts g) i [s]; g_caches := g_caches g |}) (g_all g) = map (slabext g) (g_all g)).
      { apply map_ext_in. intros x Hx. unfold slabext. cbn [g_hd]. rewrite fset_other; auto. intros ->. contradiction. }
      rewrite Em. unfold slabext at 1. cbn [g_hd]. rewrite fset_same. cbn [app]. apply Ext_add; [auto|auto|reflexivity|reflexivity|auto|apply (v_ext _ _ _ _ V)].
    + apply (v_big _ _ _ _ V).
    + intros x Hx. destruct (v_live _ _ _ _ V x Hx) as (Z0 & Q). split; auto. intros L. destruct (Q L) as (y & A & B & C & D & E). exists y.
      assert (y <> s) by (intros ->; contradiction). rewrite !fset_other by auto. repeat split; auto. right; auto.
    + apply (v_small _ _ _ _ V).
Qed.
