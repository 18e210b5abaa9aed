(* Large blocks, and the invariant of every reachable state. *)
From Coq Require Import Permutation.
From Verif Require Import Base Alloc_Model Alloc_Spec Alloc_Proofs Alloc_Free.
Open Scope Z_scope.

Definition bigok (bg : list (Z * Z)) : Prop := Forall (fun c => 0 <= fst c /\ (fst c = 0 -> snd c = 0)) bg.
Lemma Inv_mem g h lv pd m' mp' bg' lv' pd' : Inv g h lv pd -> (forall a, meta g a -> m' a = mem h a) ->
  Ext mp' (extents g bg' lv' pd') -> bigok bg' ->
  (forall b, In b lv' -> liveok (g_all g) (g_bk g) (g_fl g) (g_caches g) b) -> NoDup (map fst (filter small lv')) ->
  Inv g {| mem := m'; mapped := mp'; bkts := bkts h; big := bg' |} lv' pd'.
Proof.
  intros V Fm E B L N.
  assert (Hd : forall s o, In s (g_all g) -> 0 <= o < 48 -> m' (s + o) = mem h (s + o)).
  { intros s o Is Ho. apply Fm. exists s. split; auto. left. lia. }
  constructor; cbn [mem mapped bkts big]; auto.
  - apply (v_nodup _ _ _ _ V).
  - intros s Is. destruct (v_slab _ _ _ _ V s Is) as (Bs & O1 & O2 & O3 & O4 & O5). split; auto. unfold slabok.
    rewrite !Hd by (auto; offs; lia). split; auto. split; auto. eapply chain_frame; [|exact O2]. intros c Hc. apply Fm. exists s. auto.
  - apply (v_len _ _ _ _ V).
  - intros i Hi. destruct (v_bkt _ _ _ _ V i Hi) as (D & S & C). split; [|split; auto].
    + eapply dll_frame; [|exact D]. intros s Hs. destruct (v_parts _ _ _ _ V i s Hi Hs) as (Is & _). split; apply Hd; auto; offs; lia.
    + eapply sll_frame; [|exact S]. intros s Hs. destruct (v_caches _ _ _ _ V i s Hi Hs) as (Is & _). split; apply Hd; auto; offs; lia.
  - apply (v_parts _ _ _ _ V).
  - apply (v_partsnd _ _ _ _ V).
  - apply (v_caches _ _ _ _ V).
  - apply (v_cachesnd _ _ _ _ V).
  - apply (v_where _ _ _ _ V).
Qed.
Lemma meta_mapped g h lv pd a : Inv g h lv pd -> meta g a -> mapped h a = true.
Proof.
  intros V (s & Is & M). destruct (inv_slab _ _ _ _ s V Is) as (_ & _ & Mp). apply Mp.
  destruct M as [M|M]; [unfold Slabsz; lia|]. destruct (v_slab _ _ _ _ V s Is) as (Bi & _ & _ & _ & _ & _ & _ & _ & _ & F).
  rewrite Forall_forall in F. pose proof (ischunk_range _ _ _ Bi (F a M)). destruct (bkt_facts _ Bi). lia.
Qed.

Lemma Ext_split mp p n k l : Ext mp ((p, k) :: l) -> 0 < n < k -> n mod Pagesz = 0 -> Ext mp ((p, n) :: (p + n, k - n) :: l).
Proof.
  intros [S F] Hn Hm. inversion_clear S as [|? ? D S']. inversion_clear F as [|? ? G F']. rewrite Forall_forall in D.
  destruct G as (A & B & P & C & G). cbn [fst snd] in *.
  assert (Pg : Pagesz <> 0) by (unfold Pagesz; lia).
  split.
  - constructor; [constructor|constructor].
    + unfold disj. cbn [fst snd]. lia.
    + apply Forall_forall. intros x Hx. specialize (D x Hx). unfold disj in *. cbn [fst snd] in *. lia.
    + apply Forall_forall. intros x Hx. specialize (D x Hx). unfold disj in *. cbn [fst snd] in *. lia.
    + auto.
  - assert (M1 : (p + n) mod Pagesz = 0) by (rewrite Z.add_mod, P, Hm by auto; reflexivity).
    assert (M2 : (k - n) mod Pagesz = 0) by (rewrite Zminus_mod, C, Hm; reflexivity).
    constructor; [|constructor]; auto.
    + repeat split; cbn [fst snd]; auto; try lia. intros a Ha. apply G. lia.
    + repeat split; cbn [fst snd]; auto; try lia. intros a Ha. apply G. lia.
Qed.
Lemma Ext_join mp p n k l : Ext mp ((p, n) :: (p + n, k) :: l) -> Ext mp ((p, n + k) :: l).
Proof.
  intros [S F]. inversion_clear S as [|? ? D S1]. inversion_clear S1 as [|? ? D' S']. inversion_clear F as [|? ? G F1]. inversion_clear F1 as [|? ? G' F'].
  inversion_clear D as [|? ? _ D1]. rewrite Forall_forall in *.
  destruct G as (A & B & P & C & G). destruct G' as (A' & B' & P' & C' & G'). cbn [fst snd] in *.
  assert (Pg : Pagesz <> 0) by (unfold Pagesz; lia).
  split.
  - constructor; auto. apply Forall_forall. intros x Hx. specialize (D1 x Hx). specialize (D' x Hx). destruct (F' x Hx) as (_ & X & _).
    unfold disj in *. cbn [fst snd] in *. lia.
  - constructor; [|apply Forall_forall; auto]. repeat split; cbn [fst snd]; auto; try lia.
    + rewrite Z.add_mod, C, C' by auto. reflexivity.
    + intros a Ha. destruct (Z_lt_ge_dec a (p + n)); [apply G|apply G']; lia.
Qed.

(* --- the cache of large blocks --- *)
Lemma takebig_some sz l : forall p l', takebig sz l = Some (p, l') ->
  exists l1 csz l2, l = l1 ++ (csz, p) :: l2 /\ l' = l1 ++ (csz - sz, p + sz) :: l2 /\ sz < csz.
Proof.
  induction l as [|[c q] l IH]; intros p l' E; cbn [takebig] in E; [discriminate E|].
  destruct (Z.ltb_spec sz c).
  - injection E as <- <-. exists [], c, l. auto.
  - destruct (takebig sz l) as [[q' l'']|]; [|discriminate E]. injection E as <- <-.
    destruct (IH _ _ eq_refl) as (l1 & csz & l2 & -> & -> & L). exists ((c, q) :: l1), csz, l2. auto.
Qed.
Lemma extents_big g b1 c b2 lv pd : extents g (b1 ++ c :: b2) lv pd =
  (map (slabext g) (g_all g) ++ flat_map cachext b1) ++ cachext c ++ (flat_map cachext b2 ++ flat_map liveext lv ++ pd).
Proof. unfold extents. rewrite flat_map_app. cbn [flat_map]. rewrite <- !app_assoc. auto. Qed.
Lemma extents_rest g b1 b2 lv pd : extents g (b1 ++ b2) lv pd =
  (map (slabext g) (g_all g) ++ flat_map cachext b1) ++ (flat_map cachext b2 ++ flat_map liveext lv ++ pd).
Proof. unfold extents. rewrite flat_map_app. rewrite <- !app_assoc. auto. Qed.
Lemma perm_big g b1 c b2 lv pd : Permutation (extents g (b1 ++ c :: b2) lv pd) (cachext c ++ extents g (b1 ++ b2) lv pd).
Proof. rewrite extents_big, extents_rest. apply Permutation_app_swap_app. Qed.
Lemma perm_live g bg l1 x l2 pd : Permutation (extents g bg (l1 ++ x :: l2) pd) (liveext x ++ extents g bg (l1 ++ l2) pd).
Proof.
  unfold extents. rewrite !flat_map_app. cbn [flat_map].
  transitivity ((map (slabext g) (g_all g) ++ flat_map cachext bg ++ flat_map liveext l1) ++ liveext x ++ (flat_map liveext l2 ++ pd)).
  - rewrite <- !app_assoc. reflexivity.
  - etransitivity; [apply Permutation_app_swap_app|]. rewrite <- !app_assoc. reflexivity.
Qed.
Lemma perm_pend g bg lv p1 x p2 : Permutation (extents g bg lv (p1 ++ x :: p2)) (x :: extents g bg lv (p1 ++ p2)).
Proof.
  unfold extents. transitivity ((map (slabext g) (g_all g) ++ flat_map cachext bg ++ flat_map liveext lv ++ p1) ++ x :: p2).
  - rewrite <- !app_assoc. reflexivity.
  - symmetry. apply Permutation_cons_app. rewrite <- !app_assoc. reflexivity.
Qed.
Lemma cachext_pos c : 0 < fst c -> cachext c = [(snd c, fst c)].
Proof. unfold cachext. intros H. rewrite (proj2 (Z.ltb_lt _ _)) by auto. auto. Qed.
Lemma liveext_big p sz : Bktmax < sz -> liveext (p, sz) = [(p, align sz Pagesz)].
Proof. unfold liveext. cbn [fst snd]. intros H. rewrite (proj2 (Z.leb_gt _ _)) by auto. auto. Qed.

Lemma bigalloc_ok os fill g h lv pd sz : Inv g h lv pd -> Bktmax < sz -> os_ok os h ->
  (bigalloc os fill sz h = Die /\ os (align sz Pagesz) = None) \/
  exists p h', bigalloc os fill sz h = Ok p h' /\ Inv g h' ((p, sz) :: lv) pd /\ keeps lv h h'.
Proof.
  intros V Hsz Os. pose proof (align_page sz) as (As & Am). set (n := align sz Pagesz) in *.
  assert (Pos : 0 < n) by (unfold Bktmax in *; lia).
  assert (L' : forall p b, In b ((p, sz) :: lv) -> liveok (g_all g) (g_bk g) (g_fl g) (g_caches g) b).
  { intros p b [<-|Hb]; [|apply (v_live _ _ _ _ V); auto]. split; cbn [snd]; unfold Bktmax in *; lia. }
  assert (S' : forall p, NoDup (map fst (filter small ((p, sz) :: lv)))).
  { intros p. cbn [filter]. unfold small at 1. cbn [snd]. rewrite (proj2 (Z.leb_gt sz Bktmax)) by lia. apply (v_small _ _ _ _ V). }
  unfold bigalloc. fold n. destruct (takebig n (big h)) as [[p l']|] eqn:Et.
  - right. destruct (takebig_some _ _ _ _ Et) as (b1 & csz & b2 & Eb & -> & Lt).
    eexists p, _. split; [reflexivity|]. split; [|intros b a _ _; auto].
    pose proof (v_ext _ _ _ _ V) as E. pose proof (v_big _ _ _ _ V) as B. rewrite Eb in E, B.
    apply (Inv_mem g h lv pd); auto.
    + eapply Ext_perm; [symmetry; apply perm_big|]. eapply Ext_perm in E; [|apply perm_big].
      rewrite cachext_pos in * by (cbn [fst]; lia). cbn [fst snd app] in *. apply (Ext_split _ _ n) in E; [|lia|auto].
      eapply Ext_perm; [|exact E]. etransitivity; [apply perm_swap|]. apply perm_skip.
      change ((p, sz) :: lv) with ([] ++ (p, sz) :: lv). etransitivity; [|symmetry; apply perm_live]. rewrite liveext_big by auto. reflexivity.
    + apply Forall_app in B as (B1 & B2). inversion_clear B2. apply Forall_app. split; auto. constructor; auto. cbn [fst snd]. lia.
    + apply L'.
  - unfold getmem. destruct (os n) as [p|] eqn:Eo; [right|left; auto].
    destruct (Os _ _ Eo) as (Pp & Pm & Pu). eexists p, _. split; [reflexivity|].
    assert (Nw : forall a, mapped h a = true -> (if within p n a then fill a else mem h a) = mem h a).
    { intros a Ha. unfold within. destruct (Z.leb_spec p a), (Z.ltb_spec a (p + n)); auto. cbn. rewrite Pu in Ha by lia. discriminate Ha. }
    split.
    + apply (Inv_mem g h lv pd); auto.
      * intros a Ha. apply Nw. eapply meta_mapped; eauto.
      * change ((p, sz) :: lv) with ([] ++ (p, sz) :: lv). eapply Ext_perm; [symmetry; apply perm_live|]. rewrite liveext_big by auto. cbn [app]. fold n.
        apply Ext_add; auto. apply (v_ext _ _ _ _ V).
      * apply (v_big _ _ _ _ V).
      * apply L'.
    + intros b a Hb Ha. cbn [mem]. apply Nw. eapply live_mapped; eauto.
Qed.

(* what the scan of the cache does *)
Lemma bigscan_spec p sz l : forall i ev l' ev', bigscan p sz l i ev = (l', ev') ->
  (exists l1 c q l2, l = l1 ++ (c, q) :: l2 /\ fst ev' = (None, 0) /\
     ((q = p + sz /\ l' = l1 ++ (c + sz, p) :: l2) \/ (q + c = p /\ l' = l1 ++ (c + sz, q) :: l2))) \/
  (l' = l /\ (ev' = ev \/ exists l1 c q l2, l = l1 ++ (c, q) :: l2 /\ ev' = (Some (i + length l1)%nat, c, q))).
Proof.
  induction l as [|[c q] l IH]; intros i ev l' ev' E; cbn [bigscan] in E.
  - injection E as <- <-. right. auto.
  - destruct (Z.eqb_spec q (p + sz)) as [Eq|Nq].
    { injection E as <- <-. left. exists [], c, q, l. cbn. auto. }
    destruct (Z.eqb_spec (q + c) p) as [Eq'|Nq'].
    { injection E as <- <-. left. exists [], c, q, l. cbn. auto. }
    cbn zeta in E. destruct (bigscan p sz l (S i) (if c <? snd (fst ev) then (Some i, c, q) else ev)) as [l'' ev''] eqn:Es.
    injection E as <- <-. destruct (IH _ _ _ _ Es) as [(l1 & c' & q' & l2 & -> & E1 & E2)|(-> & E2)].
    + left. exists ((c, q) :: l1), c', q', l2. split; auto. split; auto. destruct E2 as [(A & ->)|(A & ->)]; auto.
    + right. split; auto. destruct E2 as [->|(l1 & c' & q' & l2 & -> & ->)].
      * destruct (c <? snd (fst ev)); auto. right. exists [], c, q, l. cbn [app length]. rewrite Nat.add_0_r. auto.
      * right. exists ((c, q) :: l1), c', q', l2. cbn [app length]. rewrite Nat.add_succ_r. auto.
Qed.
Lemma upd_mid {A} (l1 : list A) x l2 y : upd (l1 ++ x :: l2) (length l1) y = l1 ++ y :: l2.
Proof. induction l1; cbn; auto. f_equal. auto. Qed.

Lemma bigfree_ok g h l1 p sz l2 pd : Inv g h (l1 ++ (p, sz) :: l2) pd -> Bktmax < sz ->
  exists e h', bigfree p sz h = Ok e h' /\ Inv g h' (l1 ++ l2) (match e with Some r => r :: pd | None => pd end) /\ mem h' = mem h.
Proof.
  intros V Hsz. pose proof (align_page sz) as (As & Am). unfold bigfree. set (n := align sz Pagesz) in *.
  assert (Pos : 0 < n) by (unfold Bktmax in *; lia).
  pose proof (v_ext _ _ _ _ V) as E. eapply Ext_perm in E; [|apply perm_live]. rewrite liveext_big in E by auto. fold n in E. cbn [app] in E.
  assert (Pp : 0 < p) by (destruct (Ext_in _ _ _ E (or_introl eq_refl)) as (X & _); exact X).
  pose proof (v_big _ _ _ _ V) as B.
  assert (Go : forall bg' pd', Ext (mapped h) (extents g bg' (l1 ++ l2) pd') -> bigok bg' ->
     Inv g {| mem := mem h; mapped := mapped h; bkts := bkts h; big := bg' |} (l1 ++ l2) pd').
  { intros bg' pd' E' B'. apply (Inv_mem g h (l1 ++ (p, sz) :: l2) pd); auto.
    - intros b Hb. apply (v_live _ _ _ _ V). apply in_app_or in Hb as [?|?]; apply in_or_app; cbn; auto.
    - pose proof (v_small _ _ _ _ V) as ND. rewrite filter_app in *. cbn [filter] in ND. unfold small at 2 in ND. cbn [snd] in ND.
      rewrite (proj2 (Z.leb_gt sz Bktmax)) in ND by lia. exact ND. }
  destruct (bigscan p n (big h) 0 (None, n, p)) as [l' ev'] eqn:Es.
  destruct (bigscan_spec _ _ _ _ _ _ _ Es) as [(b1 & c & q & b2 & Eb & Ev & Hm)|(-> & Hv)].
  - rewrite Ev. cbn [fst snd]. change (0 <? 0) with false. cbv iota.
    rewrite Eb in E, B. apply Forall_app in B as (B1 & B2). inversion_clear B2 as [|? ? Bc B2']. cbn [fst snd] in Bc.
    assert (Cp : 0 < c).
    { destruct (Z.eq_dec c 0) as [->|]; [|lia]. destruct Bc as (_ & X). specialize (X eq_refl). subst q. lia. }
    assert (E' : Ext (mapped h) ((p, n) :: (q, c) :: extents g (b1 ++ b2) (l1 ++ l2) pd)).
    { eapply Ext_perm; [|exact E]. apply perm_skip. etransitivity; [apply perm_big|]. rewrite cachext_pos by (cbn [fst]; lia). reflexivity. }
    eexists _, _. split; [reflexivity|]. split; auto. apply Go.
    + destruct Hm as [(-> & ->)|(Hq & ->)]; (eapply Ext_perm; [symmetry; apply perm_big|]); rewrite cachext_pos by (cbn [fst]; lia); cbn [fst snd app].
      * replace (c + n) with (n + c) by lia. apply Ext_join. auto.
      * apply Ext_join. rewrite Hq. eapply Ext_perm; [apply perm_swap|]. auto.
    + destruct Hm as [(-> & ->)|(Hq & ->)]; apply Forall_app; split; auto; constructor; auto; cbn [fst snd]; lia.
  - destruct Hv as [->|(b1 & c & q & b2 & Eb & ->)]; cbn [fst snd].
    + rewrite (proj2 (Z.ltb_lt 0 n)) by auto. eexists _, _. split; [reflexivity|]. split; auto. apply Go; auto.
      change ((p, n) :: pd) with ([] ++ (p, n) :: pd). eapply Ext_perm; [symmetry; apply perm_pend|]. auto.
    + rewrite Eb. cbn [Nat.add]. rewrite upd_mid. rewrite Eb in E, B.
      apply Forall_app in B as (B1 & B2). inversion_clear B2 as [|? ? Bc B2']. cbn [fst snd] in Bc.
      assert (Bn : bigok (b1 ++ (n, p) :: b2)) by (apply Forall_app; split; auto; constructor; auto; cbn [fst snd]; lia).
      assert (E' : Ext (mapped h) ((p, n) :: cachext (c, q) ++ extents g (b1 ++ b2) (l1 ++ l2) pd)).
      { eapply Ext_perm; [|exact E]. apply perm_skip. apply perm_big. }
      eexists _, _. split; [reflexivity|]. split; auto. apply Go; auto.
      unfold cachext at 1 in E'. cbn [fst snd] in E'. destruct (0 <? c).
      * change ((q, c) :: pd) with ([] ++ (q, c) :: pd). eapply Ext_perm; [symmetry; apply perm_pend|].
        eapply Ext_perm; [|exact E']. cbn [app]. etransitivity; [apply perm_swap|]. apply perm_skip.
        etransitivity; [|symmetry; apply perm_big]. rewrite cachext_pos by auto. reflexivity.
      * eapply Ext_perm; [|exact E']. etransitivity; [|symmetry; apply perm_big]. rewrite cachext_pos by auto. reflexivity.
Qed.

Lemma bytealloc_ok os fill g h lv pd sz : Inv g h lv pd -> 0 <= sz -> os_ok os h ->
  (bytealloc os fill sz h = Die /\ exists n, os n = None) \/
  exists p h' g', bytealloc os fill sz h = Ok p h' /\ Inv g' h' ((p, sz) :: lv) pd /\ keeps lv h h'.
Proof.
  intros V Hs Os. unfold bytealloc. destruct (Z.leb_spec sz Bktmax).
  - destruct (bktalloc_ok os fill g h lv pd sz V ltac:(lia) Os) as [(A & B)|(c & h' & g' & A & B & C)]; [left; eauto|right; eauto 6].
  - destruct (bigalloc_ok os fill g h lv pd sz V ltac:(lia) Os) as [(A & B)|(c & h' & A & B & C)]; [left; eauto|right; eauto 6].
Qed.
Lemma live_addr g h lv pd b : Inv g h lv pd -> In b lv -> 0 < fst b /\ fst b mod Align = 0 /\ 0 <= snd b.
Proof.
  intros V Hb. destruct (v_live _ _ _ _ V b Hb) as (Z0 & Q). destruct (Z_le_gt_dec (snd b) Bktmax) as [L|L].
  - destruct (Q L) as (s & Is & Bs & C & _). destruct (v_slab _ _ _ _ V s Is) as (Bi & _). destruct (inv_slab _ _ _ _ s V Is) as (Ps & Ms & _).
    destruct (ischunk_range _ _ _ Bi C) as (A & _ & M). repeat split; auto; [lia|]. unfold Align, Slabsz in *.
    assert (S16 : s mod 16 = 0).
    { rewrite (Z.div_mod s (512 * 1024)), Ms by lia. replace (512 * 1024 * (s / (512 * 1024)) + 0) with (s / (512 * 1024) * 32768 * 16) by ring. apply Z.mod_mul. lia. }
    replace (fst b) with (fst b - s + s) by lia. rewrite Z.add_mod, M, S16 by lia. reflexivity.
  - assert (G : good (mapped h) (fst b, align (snd b) Pagesz)).
    { eapply Ext_in; [apply (v_ext _ _ _ _ V)|]. unfold extents. rewrite !in_app_iff. right. right. left. apply in_flat_map. exists b. split; auto.
      unfold liveext. rewrite (proj2 (Z.leb_gt _ _)) by lia. left; auto. }
    destruct G as (A & _ & M & _). cbn [fst] in *. repeat split; auto. unfold Align, Pagesz in *.
    rewrite (Z.div_mod (fst b) (4 * 1024)), M by lia.
    replace (4 * 1024 * (fst b / (4 * 1024)) + 0) with (fst b / (4 * 1024) * 256 * 16) by ring. apply Z.mod_mul. lia.
Qed.
Lemma bytefree_ok g h l1 p sz l2 pd : Inv g h (l1 ++ (p, sz) :: l2) pd ->
  exists e h' g', bytefree p sz h = Ok e h' /\ Inv g' h' (l1 ++ l2) (match e with Some r => r :: pd | None => pd end) /\ keeps (l1 ++ l2) h h'.
Proof.
  intros V. assert (I : In (p, sz) (l1 ++ (p, sz) :: l2)) by (apply in_or_app; right; left; auto).
  destruct (live_addr _ _ _ _ _ V I) as (P & _). cbn [fst] in P. unfold bytefree. rewrite (proj2 (Z.eqb_neq p 0)) by lia.
  destruct (Z.leb_spec sz Bktmax).
  - destruct (bktfree_ok _ _ _ _ _ _ _ V ltac:(auto)) as (h' & g' & A & _ & B & C). exists None, h', g'. split; auto. unfold bind. rewrite A. auto.
  - destruct (bigfree_ok _ _ _ _ _ _ _ V ltac:(auto)) as (e & h' & A & B & C). exists e, h', g. split; auto. split; auto.
    intros b a _ _. rewrite C. auto.
Qed.

Definition ghost0 : ghost := {| g_all := []; g_bk := fun _ => O; g_hd := fun _ => 0; g_fl := fun _ => []; g_parts := fun _ => []; g_caches := fun _ => [] |}.
Lemma inv_init m mp : Inv ghost0 (initial m mp) [] [].
Proof.
  constructor; cbn [ghost0 g_all g_bk g_hd g_fl g_parts g_caches]; try (intros; contradiction); try (intros; constructor; fail).
  - intros i Hi. assert (E : nth i (bkts (initial m mp)) bkt0 = bkt0).
    { cbn [initial bkts]. clear. generalize nbkts. intros n. revert i. induction n; destruct i; cbn; auto. }
    rewrite E. cbn. auto.
  - split; constructor.
  - cbn [initial big]. apply Forall_forall. intros c Hc. apply repeat_spec in Hc as ->. cbn. lia.
Qed.
Theorem reachable_inv w : reachable w -> exists g, Inv g (heap w) (live w) (pend w).
Proof.
  induction 1 as [m mp|w w' _ (g & V) S].
  - exists ghost0. apply inv_init.
  - destruct S as [w os fill sz p s Hs Os E|w l p sz l' e s El E|w l p n l' s El E|w m Hm]; cbn [heap live pend].
    + destruct (bytealloc_ok os fill g _ _ _ sz V Hs Os) as [(D & _)|(p' & h' & g' & A & B & _)]; [congruence|].
      assert (p' = p /\ h' = s) as [-> ->] by (split; congruence). eauto.
    + rewrite El in V. destruct (bytefree_ok _ _ _ _ _ _ _ V) as (e' & h' & g' & A & B & _).
      assert (e' = e /\ h' = s) as [-> ->] by (split; congruence). eauto.
    + exists g. unfold freemem in E. injection E as <-. rewrite El in V. apply (Inv_mem g (heap w) (live w) (l ++ (p, n) :: l')); auto.
      * pose proof (v_ext _ _ _ _ V) as X. eapply Ext_perm in X; [|apply perm_pend]. apply Ext_del in X. exact X.
      * apply (v_big _ _ _ _ V).
      * apply (v_live _ _ _ _ V).
      * apply (v_small _ _ _ _ V).
    + exists g. apply (Inv_mem g (heap w) (live w) (pend w)); auto.
      * intros a Ha. destruct (Z.eq_dec (mem (heap w) a) (m a)) as [|N]; auto. exfalso. destruct (Hm a N) as (b & Hb & Hi).
        eapply meta_not_live; eauto.
      * apply (v_ext _ _ _ _ V).
      * apply (v_big _ _ _ _ V).
      * apply (v_live _ _ _ _ V).
      * apply (v_small _ _ _ _ V).
Qed.
