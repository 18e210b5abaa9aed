(* Allocating and freeing keep the allocator's invariant. *)
From Coq Require Import Permutation.
From Verif Require Import Base Alloc_Model Alloc_Spec Alloc_Proofs.
Open Scope Z_scope.

Lemma keeps_trans lv h h1 h2 : keeps lv h h1 -> keeps lv h1 h2 -> keeps lv h h2.
Proof. intros A B b a Hb Ha. rewrite (B b a), (A b a); auto. Qed.

Lemma bktalloc_ok os fill g h lv pd sz : Inv g h lv pd -> 0 <= sz <= Bktmax -> os_ok os h ->
  (bktalloc os fill (bktnum sz) h = Die /\ os (Slabsz * 2) = None) \/
  exists c h' g', bktalloc os fill (bktnum sz) h = Ok c h' /\ Inv g' h' ((c, sz) :: lv) pd /\ keeps lv h h'.
Proof.
  intros V Hsz Os. destruct (bktnum_ok sz Hsz) as (Hi & _). set (i := bktnum sz) in *.
  unfold bktalloc. rewrite bind_getb. destruct (v_bkt _ _ _ _ V i Hi) as (Dl & _ & _). cbn zeta in *.
  destruct (Z.eqb_spec (b_slabs (nth i (bkts h) bkt0)) 0) as [E|N].
  - destruct (mkslab_ok os fill g h lv pd i V Hi E Os) as [(D & R)|(s & h' & g' & M & P & K & V')].
    + left. split; auto. unfold bind. rewrite D. auto.
    + right. unfold bind at 1. rewrite M. rewrite bind_setslabs.
      destruct (grab_ok _ _ _ _ i s [] sz V' Hi P Hsz eq_refl) as (c & h2 & g2 & G & V2 & K2).
      exists c, h2, g2. split; [exact G|]. split; auto. eapply keeps_trans; [exact K|]. exact K2.
  - right. destruct (g_parts g i) as [|s rest] eqn:P; [cbn in Dl; contradiction|]. cbn [dll] in Dl. destruct Dl as (-> & _).
    destruct (grab_ok _ _ _ _ i s rest sz V Hi P Hsz eq_refl) as (c & h2 & g2 & G & V2 & K2). exists c, h2, g2. auto.
Qed.

(* --- live blocks are apart, with everything that belongs to them --- *)
Definition full (b : Z * Z) : Z := if small b then bsz (bktnum (snd b)) else align (snd b) Pagesz.
Lemma full_le b : 0 <= snd b -> snd b <= full b /\ 0 < full b.
Proof.
  intros H. unfold full, small. destruct (Z.leb_spec (snd b) Bktmax).
  - destruct (bktnum_ok (snd b) ltac:(lia)) as (A & B). pose proof (bkt_facts _ A). lia.
  - pose proof (align_page (snd b)). unfold Bktmax in *. lia.
Qed.
Lemma NoDup_app_split {A} (l1 l2 : list A) x : NoDup (l1 ++ x :: l2) -> ~ In x (l1 ++ l2).
Proof. apply NoDup_remove_2. Qed.
Lemma full_apart g h l1 x l2 pd y : Inv g h (l1 ++ x :: l2) pd -> In y (l1 ++ l2) -> disj (fst x, full x) (fst y, full y).
Proof.
  intros V Hy. assert (Ix : In x (l1 ++ x :: l2)) by (apply in_or_app; right; left; auto).
  assert (Iy : In y (l1 ++ x :: l2)) by (apply in_app_or in Hy as [?|?]; apply in_or_app; cbn; auto).
  destruct (v_live _ _ _ _ V x Ix) as (Zx & Qx). destruct (v_live _ _ _ _ V y Iy) as (Zy & Qy).
  assert (Sy : forall s, In s (g_all g) -> small y = false -> disj (slabext g s) (fst y, full y)).
  { intros s Is S. eapply ext_slab_live; eauto. apply in_flat_map. exists y. split; auto. unfold liveext, full, small in *.
    rewrite S. left. auto. }
  assert (Sx : forall s, In s (g_all g) -> small x = false -> disj (slabext g s) (fst x, full x)).
  { intros s Is S. eapply ext_slab_live; eauto. apply in_flat_map. exists x. split; auto. unfold liveext, full, small in *.
    rewrite S. left. auto. }
  assert (In_slab : forall b s, g_bk g s = bktnum (snd b) -> In s (g_all g) -> ischunk (g_bk g s) s (fst b) -> small b = true ->
     s + 48 <= fst b /\ fst b + full b <= s + Slabsz /\ g_hd g s <= s /\ s + Slabsz <= g_hd g s + Slabsz * 2 /\ s mod Slabsz = 0).
  { intros b s E Is C S. destruct (v_slab _ _ _ _ V s Is) as (Bi & _ & _ & _ & _ & M & K1 & K2 & _).
    pose proof (ischunk_range _ _ _ Bi C). unfold full. rewrite S, <- E. repeat split; auto; lia. }
  destruct (small x) eqn:Sx', (small y) eqn:Sy'.
  - destruct (Qx ltac:(unfold small in Sx'; apply Z.leb_le; auto)) as (s & Is & Bs & Cs & _).
    destruct (Qy ltac:(unfold small in Sy'; apply Z.leb_le; auto)) as (s' & Is' & Bs' & Cs' & _).
    assert (Ne : fst x <> fst y).
    { pose proof (v_small _ _ _ _ V) as ND. rewrite filter_app, map_app in ND. cbn [filter] in ND. rewrite Sx' in ND. cbn [map] in ND.
      apply NoDup_app_split in ND. intros E. apply ND. rewrite E, <- map_app, <- filter_app. apply in_map. apply filter_In. auto. }
    destruct (Z.eq_dec s s') as [<-|Ns].
    + unfold disj, full. cbn [fst snd]. rewrite Sx', Sy', <- Bs, <- Bs'.
      destruct (ischunk_apart _ _ _ _ (proj1 (v_slab _ _ _ _ V s Is)) Cs Cs') as [X|[X|X]]; [contradiction|auto|auto].
    + destruct (In_slab x s) as (A & B & _ & _ & M); auto. destruct (In_slab y s') as (A' & B' & _ & _ & M'); auto.
      unfold disj. cbn [fst snd]. destruct (slabs_apart s s' M M' Ns); lia.
  - destruct (Qx ltac:(unfold small in Sx'; apply Z.leb_le; auto)) as (s & Is & Bs & Cs & _).
    destruct (In_slab x s) as (A & B & C & D & _); auto. specialize (Sy s Is eq_refl). unfold disj, slabext in *. cbn [fst snd] in *. lia.
  - destruct (Qy ltac:(unfold small in Sy'; apply Z.leb_le; auto)) as (s & Is & Bs & Cs & _).
    destruct (In_slab y s) as (A & B & C & D & _); auto. specialize (Sx s Is eq_refl). unfold disj, slabext in *. cbn [fst snd] in *. lia.
  - destruct (v_ext _ _ _ _ V) as (S & _). unfold extents in S. rewrite flat_map_app in S. cbn [flat_map] in S.
    assert (Ex : liveext x = [(fst x, full x)]) by (unfold liveext, full, small in *; rewrite Sx'; auto).
    assert (Ey : liveext y = [(fst y, full y)]) by (unfold liveext, full, small in *; rewrite Sy'; auto).
    rewrite Ex in S. cbn [app] in S.
    apply (Sep_perm _ ((fst x, full x) :: map (slabext g) (g_all g) ++ flat_map cachext (big h) ++ (flat_map liveext l1 ++ flat_map liveext l2) ++ pd)) in S.
    + inversion_clear S as [|? ? F _]. rewrite Forall_forall in F. apply F. rewrite <- flat_map_app, !in_app_iff. right. right. left.
      apply in_flat_map. exists y. rewrite Ey. split; auto. left; auto.
    + transitivity ((map (slabext g) (g_all g) ++ flat_map cachext (big h) ++ flat_map liveext l1) ++ (fst x, full x) :: (flat_map liveext l2 ++ pd)).
      * rewrite <- !app_assoc. reflexivity.
      * symmetry. apply Permutation_cons_app. rewrite <- !app_assoc. reflexivity.
Qed.

(* --- giving a chunk back --- *)
Lemma putback_ok i s hd fl c h : (i < nbkts)%nat -> (forall a, s <= a < s + Slabsz -> mapped h a = true) -> 0 < s ->
  slabok (mem h) i s hd fl -> ischunk i s c -> ~ In c fl ->
  exists m', putback s c h = Ok tt (smem h m') /\ slabok m' i s hd (c :: fl) /\
             (forall a, a <> s + ofreehd -> a <> s + onfree -> a <> c -> m' a = mem h a).
Proof.
  intros Hi Mp Ps (O1 & O2 & O3 & O4 & O5 & O6 & O7 & O8 & O9) Cc Nc.
  pose proof (ischunk_range _ _ _ Hi Cc) as Rc. destruct (bkt_facts i Hi) as (_ & _ & _ & Bz).
  unfold putback. rewrite bind_load by (apply Mp; offs; unfold Slabsz; lia).
  rewrite bind_store by (apply Mp; offs; unfold Slabsz; lia).
  rewrite bind_load by (cbn [smem mapped]; apply Mp; offs; unfold Slabsz; lia).
  rewrite bind_store by (cbn [smem mapped]; apply Mp; lia).
  rewrite bind_store by (cbn [smem mapped]; apply Mp; offs; unfold Slabsz; lia).
  cbn [smem mem mapped bkts big]. rewrite (mupd_other (mem h) (s + onfree) _ (s + ofreehd)) by (offs; lia).
  eexists. split; [reflexivity|]. split.
  - unfold slabok. split; [rewrite !mupd_other by (offs; lia); auto|].
    split.
    { rewrite mupd_same. cbn [chain]. split; auto. split; [lia|]. rewrite (mupd_other _ (s + ofreehd) _ c) by (offs; lia). rewrite mupd_same.
      eapply chain_frame; [|exact O2]. intros x Hx. rewrite Forall_forall in O9. pose proof (ischunk_range _ _ _ Hi (O9 x Hx)).
      rewrite !mupd_other by (offs; first [lia|intros ->; contradiction]). auto. }
    split; [rewrite !(mupd_other _ _ _ (s + onfree)) by (offs; lia); rewrite mupd_same, O3; cbn [length]; lia|].
    split; [rewrite !mupd_other by (offs; lia); auto|]. repeat split; auto. constructor; auto.
  - intros a A B C. rewrite !mupd_other; auto.
Qed.

Lemma dll_next m l1 s l2 : forall pv h, dll m pv (l1 ++ s :: l2) h -> m (s + onext) = hd 0 l2 /\ m (s + oprev) = last l1 pv.
Proof.
  induction l1 as [|y l1 IH]; intros pv h D.
  - cbn in *. destruct D as (-> & N & P & D). split; auto. destruct l2; cbn in D; tauto.
  - cbn [app dll] in D. destruct D as (-> & N & P & D). destruct (IH _ _ D) as (A & B). split; auto. rewrite B. destruct l1; auto.
    cbn [last]. clear. revert z y. induction l1; intros; auto. apply IHl1.
Qed.
Lemma last_in {A} (l : list A) : forall d, l <> [] -> In (last l d) l.
Proof. induction l as [|x l IH]; intros d N; [contradiction|]. destruct l; [left; auto|]. right. apply IH. discriminate. Qed.
Lemma dll_unlink m m' s l2 nx pr : forall l1 pv h, dll m pv (l1 ++ s :: l2) h -> NoDup (pv :: l1 ++ s :: l2) ->
  nx = hd 0 l2 -> pr = last l1 pv ->
  (forall x, In x (l1 ++ l2) -> m' (x + onext) = if x =? pr then nx else m (x + onext)) ->
  (forall x, In x (l1 ++ l2) -> m' (x + oprev) = if x =? nx then pr else m (x + oprev)) ->
  dll m' pv (l1 ++ l2) (if h =? s then nx else h).
Proof.
  induction l1 as [|y l1 IH]; intros pv h D ND -> -> Hn Hp.
  - cbn [app dll last] in *. destruct D as (-> & N & P & D). rewrite Z.eqb_refl.
    inversion_clear ND as [|? ? Npv ND']. inversion_clear ND' as [|? ? Ns ND2].
    destruct l2 as [|x r]; cbn [hd dll] in *; auto. destruct D as (Ex & Nx & Px & D).
    assert (x <> pv) by (intros ->; apply Npv; right; left; auto).
    split; auto. split; auto. split; [rewrite Hp by (left; auto); rewrite Z.eqb_refl; auto|]. rewrite Hn by (left; auto). rewrite (proj2 (Z.eqb_neq x pv)) by auto.
    eapply dll_frame; [|exact D]. intros y Hy. rewrite Hn, Hp by (right; auto).
    rewrite (proj2 (Z.eqb_neq y pv)) by (intros ->; apply Npv; right; right; auto).
    rewrite (proj2 (Z.eqb_neq y x)) by (intros ->; inversion_clear ND2; contradiction). auto.
  - cbn [app dll] in *. destruct D as (-> & N & P & D). inversion_clear ND as [|? ? Npv ND']. assert (NDc := ND'). inversion_clear NDc as [|? ? Ny ND2].
    assert (y <> s) by (intros ->; apply Ny; apply in_or_app; right; left; auto).
    rewrite (proj2 (Z.eqb_neq y s)) by auto. split; auto. split; auto.
    assert (y <> hd 0 l2).
    { destruct l2 as [|x r]; cbn [hd]; auto. intros ->. apply Ny. apply in_or_app. right; right; left; auto. }
    split; [rewrite Hp by (left; auto); rewrite (proj2 (Z.eqb_neq y _)) by auto; auto|].
    rewrite Hn by (left; auto).
    specialize (IH y (m (y + onext)) D ND' eq_refl).
    assert (El : last (y :: l1) pv = last l1 y).
    { destruct l1; auto. cbn [last]. clear. revert z. induction l1; intros; auto. apply IHl1. }
    rewrite El in *. specialize (IH eq_refl). 
    destruct l1 as [|z l1].
    + cbn [app dll last] in *. destruct D as (E & _). rewrite Z.eqb_refl. rewrite E, Z.eqb_refl in IH. apply IH; intros x Hx; [apply Hn|apply Hp]; right; auto.
    + assert (L : In (last (z :: l1) y) (z :: l1)) by (apply last_in; discriminate).
      rewrite (proj2 (Z.eqb_neq y _)) by (intros E; rewrite E in Ny at 1; apply Ny; apply in_or_app; left; exact L).
      cbn [app dll] in D. destruct D as (E & _).
      assert (z <> s) by (intros ->; inversion_clear ND2 as [|? ? X _]; apply X; apply in_or_app; right; left; auto).
      rewrite E in *. rewrite (proj2 (Z.eqb_neq z s)) in IH by auto. apply IH; auto.
      * intros x Hx. apply Hn. right; auto.
      * intros x Hx. apply Hp. right; auto.
Qed.

Lemma smem_sbkt h m i : smem h m = sbkt h m i (nth i (bkts h) bkt0).
Proof. unfold smem, sbkt. rewrite upd_same. auto. Qed.

(* taking a slab off the list of its bucket *)
Lemma unlink_ok g h lv pd i s p1 p2 : Inv g h lv pd -> (i < nbkts)%nat -> g_parts g i = p1 ++ s :: p2 ->
  exists m2 b', unlink i s h = Ok tt (sbkt h m2 i b') /\ b_cache b' = b_cache (nth i (bkts h) bkt0) /\
    b_ncache b' = b_ncache (nth i (bkts h) bkt0) /\ dll m2 0 (p1 ++ p2) (b_slabs b') /\
    (forall a, (forall x, In x (p1 ++ p2) -> a <> x + onext /\ a <> x + oprev) -> m2 a = mem h a).
Proof.
  intros V Hi Hp. set (b := nth i (bkts h) bkt0).
  assert (Pa : forall x, In x (p1 ++ s :: p2) -> In x (g_all g)) by (intros x Hx; rewrite <- Hp in Hx; eapply v_parts; eauto).
  assert (Is : In s (g_all g)) by (apply Pa; apply in_or_app; right; left; auto).
  assert (Pb : forall x, In x (p1 ++ p2) -> In x (p1 ++ s :: p2)).
  { intros x Hx. apply in_app_or in Hx as [Hx|Hx]; apply in_or_app; cbn; auto. }
  destruct (inv_slab _ _ _ _ s V Is) as (Ps & Ms & Mp).
  destruct (v_bkt _ _ _ _ V i Hi) as (Dl & _ & _). cbn zeta in Dl. rewrite Hp in Dl. fold b in Dl.
  pose proof (v_partsnd _ _ _ _ V i Hi) as ND. rewrite Hp in ND.
  destruct (dll_next _ _ _ _ _ _ Dl) as (En & Ep).
  set (nx := mem h (s + onext)) in *. set (pr := mem h (s + oprev)) in *.
  assert (Inx : nx <> 0 -> In nx (p1 ++ p2)).
  { intros N. rewrite En in *. destruct p2 as [|x r]; cbn [hd] in *; [contradiction|]. apply in_or_app. right; left; auto. }
  assert (Ipr : pr <> 0 -> In pr (p1 ++ p2)).
  { intros N. rewrite Ep in *. apply in_or_app. left. apply last_in. intros ->. cbn in N. contradiction. }
  assert (Mx : forall x o, In x (p1 ++ p2) -> 0 <= o < 48 -> mapped h (x + o) = true).
  { intros x o Hx Ho. destruct (inv_slab _ _ _ _ x V (Pa x (Pb x Hx))) as (_ & _ & M). apply M. unfold Slabsz. lia. }
  set (m1 := if nx =? 0 then mem h else mupd (mem h) (nx + oprev) pr).
  set (m2 := if pr =? 0 then m1 else mupd m1 (pr + onext) nx).
  assert (M1 : forall a, (nx <> 0 -> a <> nx + oprev) -> m1 a = mem h a).
  { intros a Ha. unfold m1. destruct (Z.eqb_spec nx 0); auto. apply mupd_other. auto. }
  assert (M2 : forall a, (pr <> 0 -> a <> pr + onext) -> m2 a = m1 a).
  { intros a Ha. unfold m2. destruct (Z.eqb_spec pr 0); auto. apply mupd_other. auto. }
  assert (Od : forall x y, In x (p1 ++ p2) -> In y (p1 ++ p2) -> x + onext <> y + oprev).
  { intros x y Hx Hy E. destruct (inv_slab _ _ _ _ x V (Pa x (Pb x Hx))) as (_ & A & _).
    destruct (inv_slab _ _ _ _ y V (Pa y (Pb y Hy))) as (_ & B & _). destruct (Z.eq_dec x y) as [->|N]; [offs; lia|].
    pose proof (slabs_apart x y A B N). offs. unfold Slabsz in *. lia. }
  assert (D2 : dll m2 0 (p1 ++ p2) (if b_slabs b =? s then nx else b_slabs b)).
  { apply (dll_unlink (mem h) m2 s p2 nx pr p1 0 (b_slabs b)); auto.
    - constructor; auto. intros X. destruct (inv_slab _ _ _ _ 0 V (Pa 0 X)). lia.
    - intros x Hx. destruct (inv_slab _ _ _ _ x V (Pa x (Pb x Hx))) as (Px & _).
      destruct (Z.eqb_spec x pr) as [E|N].
      + unfold m2. rewrite (proj2 (Z.eqb_neq pr 0)) by lia. rewrite E. apply mupd_same.
      + rewrite M2 by (intros _; lia). apply M1. intros N0. apply Od; auto.
    - intros x Hx. destruct (inv_slab _ _ _ _ x V (Pa x (Pb x Hx))) as (Px & _).
      rewrite M2 by (intros N0 E; eapply (Od pr x); eauto).
      destruct (Z.eqb_spec x nx) as [E|N].
      + unfold m1. rewrite (proj2 (Z.eqb_neq nx 0)) by lia. rewrite E. apply mupd_same.
      + apply M1. intros _. lia. }
  assert (Fr : forall a, (forall x, In x (p1 ++ p2) -> a <> x + onext /\ a <> x + oprev) -> m2 a = mem h a).
  { intros a Ha. rewrite M2, M1; auto; intros N; apply Ha; auto. }
  unfold unlink. rewrite !bind_load by (apply Mp; offs; unfold Slabsz; lia). fold nx pr.
  assert (S1 : forall k : unit -> act unit, bind (if nx =? 0 then ret tt else store (nx + oprev) pr) k h = k tt (smem h m1)).
  { intros k. unfold m1. destruct (Z.eqb_spec nx 0).
    - rewrite bind_ret. f_equal. destruct h; auto.
    - apply bind_store. apply Mx; auto. offs; lia. }
  rewrite S1.
  assert (S2 : forall k : unit -> act unit, bind (if pr =? 0 then ret tt else store (pr + onext) nx) k (smem h m1) = k tt (smem h m2)).
  { intros k. unfold m2. destruct (Z.eqb_spec pr 0).
    - rewrite bind_ret. auto.
    - rewrite bind_store; [auto|]. cbn [smem mapped]. apply Mx; auto. offs; lia. }
  rewrite S2, bind_getb. cbn [smem bkts]. fold b.
  destruct (b_slabs b =? s) eqn:Eb.
  - exists m2, (wslabs b nx). split; [reflexivity|]. cbn [wslabs b_slabs b_cache b_ncache]. repeat split; auto.
  - exists m2, b. split; [unfold ret; rewrite (smem_sbkt h m2 i); auto|]. repeat split; auto.
Qed.

Lemma slabok_tail m m' i s hd fl : slabok m i s hd fl -> (i < nbkts)%nat ->
  (forall a, s <= a < s + Slabsz -> a <> s + onext -> a <> s + oprev -> m' a = m a) -> slabok m' i s hd fl.
Proof. intros O H F. eapply slabok_frame; [auto| |exact O]. intros a A B C. left. auto. Qed.

Lemma bktfree_ok g h l1 m sz l2 pd : Inv g h (l1 ++ (m, sz) :: l2) pd -> sz <= Bktmax ->
  exists h' g', bktfree (bktnum sz) m h = Ok tt h' /\
    (g_parts g' (bktnum sz) <> [] \/ g_caches g' (bktnum sz) <> []) /\ Inv g' h' (l1 ++ l2) pd /\ keeps (l1 ++ l2) h h'.
Proof.
  intros V Hsz. set (lv := l1 ++ (m, sz) :: l2) in *. set (lv' := l1 ++ l2).
  assert (Im : In (m, sz) lv) by (apply in_or_app; right; left; auto).
  assert (Lv : forall b, In b lv' -> In b lv) by (intros b Hb; apply in_app_or in Hb as [?|?]; apply in_or_app; cbn; auto).
  destruct (v_live _ _ _ _ V _ Im) as (Z0 & Q). cbn [fst snd] in *. destruct (Q Hsz) as (s & Is & Bs & Cs & Nm & Ncs). clear Q.
  destruct (bktnum_ok sz ltac:(lia)) as (Hi & _). set (i := bktnum sz) in *. rewrite Bs in Cs, Ncs.
  destruct (v_slab _ _ _ _ V s Is) as (_ & Ok). rewrite Bs in Ok.
  destruct (inv_slab _ _ _ _ s V Is) as (Ps & Ms & Mp). pose proof (bkt_facts i Hi) as (F1 & F2 & F3 & F4).
  pose proof (ischunk_range _ _ _ Hi Cs) as Rm.
  assert (Ne : forall b, In b lv' -> snd b <= Bktmax -> fst b <> m).
  { intros b Hb Sb E. pose proof (v_small _ _ _ _ V) as ND. unfold lv in ND. rewrite filter_app, map_app in ND. cbn [filter] in ND.
    unfold small at 2 in ND. cbn [snd] in ND. rewrite (proj2 (Z.leb_le sz Bktmax)) in ND by lia. cbn [map fst] in ND.
    apply NoDup_app_split in ND. apply ND. rewrite <- E, <- map_app, <- filter_app. apply in_map. apply filter_In. split; auto.
    unfold small. apply Z.leb_le. auto. }
  assert (Sm : NoDup (map fst (filter small lv'))).
  { pose proof (v_small _ _ _ _ V) as ND. unfold lv in ND. rewrite filter_app, map_app in ND. cbn [filter] in ND.
    unfold small at 2 in ND. cbn [snd] in ND. rewrite (proj2 (Z.leb_le sz Bktmax)) in ND by lia. cbn [map fst] in ND.
    apply NoDup_remove_1 in ND. unfold lv'. rewrite filter_app, map_app. auto. }
  assert (El : flat_map liveext lv' = flat_map liveext lv).
  { unfold lv, lv'. rewrite !flat_map_app. cbn [flat_map]. unfold liveext at 4. cbn [snd]. rewrite (proj2 (Z.leb_le sz Bktmax)) by lia. auto. }
  assert (Am : forall b a, In b lv' -> inblock b a -> a <> m).
  { intros b a Hb Ha ->. pose proof (full_apart _ _ _ _ _ _ b V Hb) as D. unfold disj in D. cbn [fst snd] in D.
    destruct (v_live _ _ _ _ V b (Lv b Hb)) as (Zb & _). pose proof (full_le b Zb). pose proof (full_le (m, sz) Z0).
    unfold inblock in Ha. lia. }
  assert (Mt : forall x o, In x (g_all g) -> 0 <= o < 48 -> forall b a, In b lv' -> inblock b a -> a <> x + o).
  { intros x o Hx Ho b a Hb' Ha ->. eapply (meta_not_live g h lv pd (x + o) b); eauto. exists x. split; auto. left. lia. }
  assert (Lok : forall b, In b lv' -> liveok (g_all g) (g_bk g) (fset (g_fl g) s (m :: g_fl g s)) (nset (g_caches g) i (g_caches g i)) b).
  { intros b Hb. destruct (v_live _ _ _ _ V b (Lv b Hb)) as (Zb & Q). split; auto. intros L. destruct (Q L) as (y & A & B & C & D & E).
    exists y. repeat split; auto.
    - unfold fset. destruct (Z.eqb_spec y s) as [->|]; auto. intros [X|X]; [|contradiction]. apply (Ne b Hb L). auto.
    - unfold nset. destruct (Nat.eqb_spec (g_bk g y) i) as [Eq|]; [rewrite <- Eq|]; auto. }
  destruct (v_bkt _ _ _ _ V i Hi) as (Dl & Sl & Nc). cbn zeta in *. set (b := nth i (bkts h) bkt0) in *.
  pose proof Ok as (O1 & O2 & O3 & O4 & _ & O6 & O7 & O8 & O9).
  assert (Apt : forall x o o', In x (g_all g) -> x <> s -> 0 <= o < 48 -> 0 <= o' < Slabsz -> x + o <> s + o').
  { intros x o o' Hx Nx Ho Ho' E. destruct (inv_slab _ _ _ _ x V Hx) as (_ & A & _). pose proof (slabs_apart x s A Ms Nx).
    unfold Slabsz in *. lia. }
  unfold bktfree. rewrite (mtrunc_slab s m Ms) by lia.
  rewrite bind_load by (apply Mp; offs; unfold Slabsz; lia). rewrite O4, Z.eqb_refl. cbn [negb].
  rewrite bind_load by (apply Mp; offs; unfold Slabsz; lia). rewrite O3.
  destruct (Z.eqb_spec (Z.of_nat (length (g_fl g s))) 0) as [E0|N0].
  - (* the slab was full *)
    assert (Ef : g_fl g s = []) by (destruct (g_fl g s); auto; cbn in E0; lia).
    assert (Np : ~ In s (g_parts g i)) by (intros X; destruct (v_parts _ _ _ _ V i s Hi X) as (_ & _ & Y); contradiction).
    rewrite bind_getb. fold b.
    set (m1 := if b_slabs b =? 0 then mem h else mupd (mem h) (b_slabs b + oprev) s).
    assert (Hs : b_slabs b <> 0 -> exists r, g_parts g i = b_slabs b :: r).
    { intros N. destruct (g_parts g i) as [|x r]; cbn [dll] in Dl; [contradiction|]. destruct Dl as (-> & _). eauto. }
    assert (Hs' : b_slabs b <> 0 -> In (b_slabs b) (g_all g) /\ b_slabs b <> s /\ g_bk g (b_slabs b) = i).
    { intros N. destruct (Hs N) as (r & E). assert (X : In (b_slabs b) (g_parts g i)) by (rewrite E; left; auto).
      destruct (v_parts _ _ _ _ V i _ Hi X) as (A & B & _). repeat split; auto. intros Y. rewrite Y in X. contradiction. }
    assert (S1 : forall k : unit -> act unit, bind (if b_slabs b =? 0 then ret tt else store (b_slabs b + oprev) s) k h = k tt (smem h m1)).
    { intros k. unfold m1. destruct (Z.eqb_spec (b_slabs b) 0).
      - rewrite bind_ret. f_equal. destruct h; auto.
      - apply bind_store. destruct (Hs' n) as (A & _). destruct (inv_slab _ _ _ _ _ V A) as (_ & _ & M). apply M. offs. unfold Slabsz. lia. }
    rewrite S1. clear S1. do 2 rewrite bind_store by (cbn [smem mapped]; apply Mp; offs; unfold Slabsz; lia). rewrite bind_setslabs.
    cbn [smem mem bkts]. fold b. set (m2 := mupd (mupd m1 (s + onext) (b_slabs b)) (s + oprev) 0).
    match goal with |- context [sbkt ?H ?M i ?B] => change (sbkt H M i B) with (sbkt h m2 i (wslabs b s)) end.
    assert (M1 : forall a, (b_slabs b <> 0 -> a <> b_slabs b + oprev) -> m1 a = mem h a).
    { intros a Ha. unfold m1. destruct (Z.eqb_spec (b_slabs b) 0); auto. apply mupd_other. auto. }
    destruct (putback_ok i s (g_hd g s) [] m (sbkt h m2 i (wslabs b s))) as (m3 & E3 & O3' & Fr3); auto.
    { rewrite Ef in Ok. eapply slabok_tail; [exact Ok|auto|]. intros a A B C. cbn [sbkt mem]. unfold m2. rewrite !mupd_other by auto.
      apply M1. intros N. destruct (Hs' N) as (X & Y & _). replace a with (s + (a - s)) by lia. apply not_eq_sym. apply Apt; auto; offs; lia. }
    rewrite E3. exists (smem (sbkt h m2 i (wslabs b s)) m3), (gset g i s [m] (s :: g_parts g i) (g_caches g i)). split; auto.
    split; [left; cbn [gset g_parts]; fold i; rewrite nset_same; discriminate|].
    change (smem (sbkt h m2 i (wslabs b s)) m3) with (sbkt h m3 i (wslabs b s)). cbn [sbkt mem] in Fr3.
    assert (Fr : forall x o, In x (g_all g) -> x <> s -> 0 <= o < 48 -> (x = b_slabs b -> o <> oprev) -> m3 (x + o) = mem h (x + o)).
    { intros x o Hx Nx Ho Hb. rewrite Fr3 by (first [apply Apt; auto; offs; unfold Slabsz; lia | replace m with (s + (m - s)) by lia; apply Apt; auto; lia]).
      unfold m2. rewrite !mupd_other by (apply Apt; auto; offs; unfold Slabsz; lia). apply M1. intros N.
      destruct (Z.eq_dec x (b_slabs b)) as [->|Nb]; [specialize (Hb eq_refl); lia|]. destruct (Hs' N) as (X & _).
      destruct (inv_slab _ _ _ _ x V Hx) as (_ & A1 & _). destruct (inv_slab _ _ _ _ _ V X) as (_ & A2 & _).
      pose proof (slabs_apart x _ A1 A2 Nb). offs. unfold Slabsz in *. lia. }
    split.
    + apply (Inv_local g h lv pd); auto.
      * intros s' a Is' Nq Ra N1 N2. destruct (inv_slab _ _ _ _ s' V Is') as (_ & Ms' & _). pose proof (slabs_apart s' s Ms' Ms Nq) as SA.
        rewrite Fr3 by (offs; unfold Slabsz in *; lia). unfold m2. rewrite !mupd_other by (offs; unfold Slabsz in *; lia). apply M1. intros N.
        destruct (Z.eq_dec s' (b_slabs b)) as [->|Nb]; auto. destruct (Hs' N) as (X & _).
        destruct (inv_slab _ _ _ _ _ V X) as (_ & A2 & _). pose proof (slabs_apart s' _ Ms' A2 Nb). offs. unfold Slabsz in *. lia.
      * intros s' Is' Nb. assert (s' <> s) by congruence.
        assert (s' = b_slabs b -> False).
        { intros ->. destruct Hs' as (_ & _ & X); [destruct (inv_slab _ _ _ _ _ V Is'); lia|]. contradiction. }
        split; apply Fr; auto; offs; try lia; intros X; exfalso; auto.
      * cbn [wslabs b_slabs dll]. split; auto. split; [lia|]. 
        assert (Es : m3 (s + oprev) = 0 /\ m3 (s + onext) = b_slabs b).
        { rewrite !Fr3 by (offs; lia). unfold m2. rewrite mupd_same. rewrite mupd_other by (offs; lia). rewrite mupd_same. auto. }
        destruct Es as (E1 & E2). split; auto. rewrite E2.
        destruct (g_parts g i) as [|x r] eqn:Ep; [exact Dl|]. cbn [dll] in *. destruct Dl as (Dh & Dn & Dp & Dr).
        destruct (Hs' ltac:(rewrite Dh; auto)) as (X1 & X2 & X3). rewrite Dh in X1, X2, X3.
        split; auto. split; auto.
        assert (m3 (x + oprev) = s).
        { rewrite Fr3 by (first [apply Apt; auto; offs; unfold Slabsz; lia | replace m with (s + (m - s)) by lia; apply Apt; auto; offs; lia]).
          unfold m2. rewrite !mupd_other by (apply Apt; auto; offs; unfold Slabsz; lia). unfold m1.
          rewrite Dh, (proj2 (Z.eqb_neq x 0)) by auto. apply mupd_same. }
        split; auto. rewrite (Fr x onext) by (auto; offs; lia). eapply dll_frame; [|exact Dr]. intros y Hy.
        assert (Iy : In y (g_all g)) by (apply (v_parts _ _ _ _ V i y Hi); rewrite Ep; right; auto).
        pose proof (v_partsnd _ _ _ _ V i Hi) as ND. rewrite Ep in ND. inversion_clear ND as [|? ? Nx _].
        assert (y <> s) by (intros ->; apply Np; right; auto). assert (y <> x) by (intros ->; contradiction).
        split; apply Fr; auto; offs; lia.
      * cbn [wslabs b_cache]. eapply sll_frame; [|exact Sl]. intros y Hy. destruct (v_caches _ _ _ _ V i y Hi Hy) as (Iy & _ & _ & Ny).
        assert (y <> s) by (intros ->; contradiction).
        assert (y = b_slabs b -> False).
        { intros ->. destruct (Hs ltac:(destruct (inv_slab _ _ _ _ _ V Iy); lia)) as (r & X). apply Ny. rewrite X. left; auto. }
        split; apply Fr; auto; offs; try lia; intros X; exfalso; auto.
      * intros x [<-|Hx]; [rewrite fset_same; repeat split; auto; discriminate|].
        destruct (v_parts _ _ _ _ V i x Hi Hx) as (A & B & C). rewrite fset_other by (intros ->; contradiction). auto.
      * constructor; auto. apply (v_partsnd _ _ _ _ V); auto.
      * intros x Hx. destruct (v_caches _ _ _ _ V i x Hi Hx) as (A & B & C & D). assert (x <> s) by (intros ->; contradiction).
        rewrite fset_other by auto. repeat split; auto. intros [X|X]; auto.
      * apply (v_cachesnd _ _ _ _ V); auto.
      * intros x Hx Bx. destruct (Z.eq_dec x s) as [->|Nx]; [left; left; auto|]. rewrite fset_other by auto.
        destruct (v_where _ _ _ _ V x Hx) as [W|[W|W]]; auto; rewrite Bx in W; auto. left; right; auto.
      * rewrite Ef in Lok. exact Lok.
    + intros x a Hx Ha. cbn [sbkt mem]. rewrite Fr3 by (first [eapply Mt; eauto; offs; lia | eapply Am; eauto]).
      unfold m2. rewrite !mupd_other by (eapply Mt; eauto; offs; lia). apply M1. intros N. eapply Mt; eauto; [apply Hs'; auto|offs; lia].
  - assert (Inp : In s (g_parts g i)).
    { destruct (v_where _ _ _ _ V s Is) as [W|[W|W]]; rewrite ?Bs in W; auto; [contradiction|]. rewrite W in N0. cbn in N0. lia. }
    destruct (Z.eqb_spec (Z.of_nat (length (g_fl g s))) (nper i - 1)) as [E1|N1].
    + (* it was the last block of the slab *)
      assert (Lst : forall b, In b lv' -> snd b <= Bktmax -> forall y, In y (g_all g) -> g_bk g y = bktnum (snd b) ->
        ischunk (g_bk g y) y (fst b) -> ~ In (fst b) (g_fl g y) -> y <> s).
      { intros x Hx Sx y Iy By Cy Ny ->. apply (Ne x Hx Sx). rewrite Bs in Cy.
        eapply last_chunk; eauto. }
      apply in_split in Inp as (p1 & p2 & Hp).
      pose proof (v_partsnd _ _ _ _ V i Hi) as NDp. rewrite Hp in NDp.
      assert (Pa : forall x, In x (p1 ++ p2) -> In x (g_all g) /\ g_bk g x = i /\ g_fl g x <> [] /\ x <> s).
      { intros x Hx. destruct (v_parts _ _ _ _ V i x Hi) as (A & B & C).
        { rewrite Hp. apply in_app_or in Hx as [?|?]; apply in_or_app; cbn; auto. }
        repeat split; auto. intros ->. apply NoDup_remove_2 in NDp. contradiction. }
      destruct (unlink_ok _ _ _ _ i s p1 p2 V Hi Hp) as (m2 & b' & Eu & Ec & Enc & Dl' & Fr). fold b in Ec, Enc.
      unfold bind at 1. rewrite Eu. unfold retire. rewrite bind_getb.
      cbn [sbkt bkts]. rewrite nth_upd_same by (rewrite (v_len _ _ _ _ V); auto).
      assert (Fs : forall a, s <= a < s + Slabsz -> m2 a = mem h a).
      { intros a Ha. apply Fr. intros x Hx. destruct (Pa x Hx) as (A & _ & _ & B).
        replace a with (s + (a - s)) by lia. split; apply not_eq_sym; apply Apt; auto; offs; lia. }
      assert (Fo : forall x o, In x (g_all g) -> ~ In x (p1 ++ p2) -> 0 <= o < 48 -> m2 (x + o) = mem h (x + o)).
      { intros x o Hx Nx Ho. apply Fr. intros y Hy. destruct (Pa y Hy) as (A & _). assert (x <> y) by (intros ->; contradiction).
        destruct (inv_slab _ _ _ _ x V Hx) as (_ & A1 & _). destruct (inv_slab _ _ _ _ y V A) as (_ & A2 & _).
        pose proof (slabs_apart x y A1 A2 H). offs. unfold Slabsz in *. lia. }
      assert (Fk : forall s' a, In s' (g_all g) -> s' <= a < s' + Slabsz -> a <> s' + onext -> a <> s' + oprev -> m2 a = mem h a).
      { intros s' a Is' Ra N2 N3. apply Fr. intros y Hy. destruct (Pa y Hy) as (A & _). destruct (Z.eq_dec s' y) as [->|N]; auto.
        destruct (inv_slab _ _ _ _ s' V Is') as (_ & A1 & _). destruct (inv_slab _ _ _ _ y V A) as (_ & A2 & _).
        pose proof (slabs_apart s' y A1 A2 N). offs. unfold Slabsz in *. lia. }
      assert (Fv : forall b a, In b lv' -> inblock b a -> m2 a = mem h a).
      { intros x a Hx Ha. apply Fr. intros y Hy. destruct (Pa y Hy) as (A & _). split; eapply Mt; eauto; offs; lia. }
      assert (Cp : forall x, In x (g_caches g i) -> In x (g_all g) /\ g_bk g x = i /\ g_fl g x <> [] /\ x <> s /\ ~ In x (p1 ++ p2)).
      { intros x Hx. destruct (v_caches _ _ _ _ V i x Hi Hx) as (A & B & C & D). repeat split; auto; [intros ->; contradiction|].
        intros X. apply D. rewrite Hp. apply in_app_or in X as [?|?]; apply in_or_app; cbn; auto. }
      destruct (b_ncache b' <? Cachemax) eqn:Ecm.
      * (* kept for later *)
        do 2 rewrite bind_store by (cbn [sbkt smem mapped]; apply Mp; offs; unfold Slabsz; lia). rewrite bind_setcache. unfold ret.
        cbn [sbkt smem mem bkts]. rewrite nth_upd_same by (rewrite (v_len _ _ _ _ V); auto).
        set (m3 := mupd (mupd m2 (s + onext) (b_cache b')) (s + oprev) 0). set (b3 := wcache b' s (b_ncache b' + 1)).
        exists (sbkt h m3 i b3), (gset g i s (g_fl g s) (p1 ++ p2) (s :: g_caches g i)).
        split; [f_equal; unfold sbkt, smem; cbn [mem mapped bkts big]; rewrite upd_upd; auto|].
        split; [right; cbn [gset g_caches]; fold i; rewrite nset_same; discriminate|].
        assert (G3 : forall a, a <> s + onext -> a <> s + oprev -> m3 a = m2 a) by (intros a A B; unfold m3; rewrite !mupd_other; auto).
        assert (Fx : forall x, fset (g_fl g) s (g_fl g s) x = g_fl g x).
        { intros x. unfold fset. destruct (Z.eqb_spec x s) as [->|]; auto. }
        split.
        -- apply (Inv_local g h lv pd); auto.
           ++ intros s' a Is' Nq Ra N2 N3. rewrite G3; [eapply Fk; eauto| |];
              destruct (inv_slab _ _ _ _ s' V Is') as (_ & A1 & _); pose proof (slabs_apart s' s A1 Ms Nq); offs; unfold Slabsz in *; lia.
           ++ intros s' Is' Nb. assert (Ns : s' <> s) by congruence. assert (~ In s' (p1 ++ p2)) by (intros X; apply Pa in X as (_ & X & _); auto).
              split; (rewrite G3 by (apply Apt; auto; offs; unfold Slabsz; lia)); apply Fo; auto; offs; lia.
           ++ eapply slabok_tail; [exact Ok|auto|]. intros a A B C. rewrite G3 by auto. auto.
           ++ cbn [b3 wcache b_slabs]. eapply dll_frame; [|exact Dl']. intros x Hx. destruct (Pa x Hx) as (A & _ & _ & B).
              split; apply G3; apply Apt; auto; offs; unfold Slabsz; lia.
           ++ cbn [b3 wcache b_cache sll]. split; auto. split; [lia|]. split; [unfold m3; apply mupd_same|].
              unfold m3 at 2. rewrite mupd_other by (offs; lia). rewrite mupd_same, Ec. eapply sll_frame; [|exact Sl].
              intros y Hy. destruct (Cp y Hy) as (A & B & C & D & E).
              split; (rewrite G3 by (apply Apt; auto; offs; unfold Slabsz; lia)); apply Fo; auto; offs; lia.
           ++ cbn [b3 wcache b_ncache length]. rewrite Enc, Nc. lia.
           ++ intros x Hx. destruct (Pa x Hx) as (A & B & C & D). rewrite Fx. auto.
           ++ apply NoDup_remove_1 in NDp. auto.
           ++ intros x [<-|Hx].
              ** rewrite Fx. repeat split; auto; [intros X; rewrite X in N0; cbn in N0; lia|]. intros X. apply Pa in X. tauto.
              ** destruct (Cp x Hx) as (A & B & C & D & E). rewrite Fx. auto.
           ++ constructor; auto. apply (v_cachesnd _ _ _ _ V); auto.
           ++ intros x Hx Bx. rewrite Fx. destruct (v_where _ _ _ _ V x Hx) as [W|[W|W]]; auto; rewrite Bx in W.
              ** rewrite Hp in W. apply in_app_or in W as [W|[W|W]]; [left; apply in_or_app; auto|right; left; left; auto|left; apply in_or_app; auto].
              ** right; left; right; auto.
           ++ intros x Hx. destruct (v_live _ _ _ _ V x (Lv x Hx)) as (Zb & Q). split; auto. intros L.
              destruct (Q L) as (y & A & B & C & D & E). exists y. rewrite Fx. repeat split; auto.
              unfold nset. destruct (Nat.eqb_spec (g_bk g y) i) as [Eq|]; auto. intros [X|X].
              ** symmetry in X. revert X. eapply Lst; eauto.
              ** apply E. rewrite Eq. auto.
        -- intros x a Hx Ha. cbn [sbkt mem]. rewrite G3 by (eapply Mt; eauto; offs; lia). eapply Fv; eauto.
      * (* unmapped *)
        rewrite bind_load by (cbn [sbkt mapped]; apply Mp; offs; unfold Slabsz; lia). cbn [sbkt mem].
        rewrite Fs by (offs; unfold Slabsz; lia). rewrite O1.
        pose proof Is as Is'. apply in_split in Is' as (a1 & a2 & Ea).
        pose proof (v_nodup _ _ _ _ V) as NDa. rewrite Ea in NDa.
        assert (Al : forall x, In x (a1 ++ a2) <-> In x (g_all g) /\ x <> s).
        { intros x. rewrite Ea. split.
          - intros X. split; [apply in_app_or in X as [?|?]; apply in_or_app; cbn; auto|]. intros ->. apply NoDup_remove_2 in NDa. contradiction.
          - intros (X & Y). apply in_app_or in X as [X|[X|X]]; [apply in_or_app; auto|congruence|apply in_or_app; auto]. }
        eexists _, {| g_all := a1 ++ a2; g_bk := g_bk g; g_hd := g_hd g; g_fl := g_fl g; g_parts := nset (g_parts g) i (p1 ++ p2); g_caches := g_caches g |}.
        split; [reflexivity|].
        split; [right; cbn [g_caches]; fold i; intros X; apply Z.ltb_ge in Ecm; rewrite Enc, Nc, X in Ecm; vm_compute in Ecm; auto|].
        split; [|intros x a Hx Ha; cbn [mem]; eapply Fv; eauto].
        constructor; cbn [g_all g_bk g_hd g_fl g_parts g_caches mem mapped bkts big sbkt].
        -- apply NoDup_remove_1 in NDa. auto.
        -- intros x Hx. apply Al in Hx as (Hx & Nx). destruct (v_slab _ _ _ _ V x Hx) as (Bx & Ox). split; auto.
           eapply slabok_tail; [exact Ox|auto|]. intros a A B C. eapply Fk; eauto.
        -- rewrite upd_length. apply (v_len _ _ _ _ V).
        -- intros j Hj. destruct (Nat.eq_dec j i) as [->|N].
           ++ rewrite nset_same, nth_upd_same by (rewrite (v_len _ _ _ _ V); auto). split; auto. rewrite Ec, Enc. split; auto.
              eapply sll_frame; [|exact Sl]. intros y Hy. destruct (Cp y Hy) as (A & B & C & D & E). split; apply Fo; auto; offs; lia.
           ++ rewrite nset_other, nth_upd_other by auto. destruct (v_bkt _ _ _ _ V j Hj) as (A & B & C). split; [|split; auto].
              ** eapply dll_frame; [|exact A]. intros y Hy. destruct (v_parts _ _ _ _ V j y Hj Hy) as (Iy & By & _).
                 assert (~ In y (p1 ++ p2)) by (intros X; apply Pa in X as (_ & X & _); congruence). split; apply Fo; auto; offs; lia.
              ** eapply sll_frame; [|exact B]. intros y Hy. destruct (v_caches _ _ _ _ V j y Hj Hy) as (Iy & By & _).
                 assert (~ In y (p1 ++ p2)) by (intros X; apply Pa in X as (_ & X & _); congruence). split; apply Fo; auto; offs; lia.
        -- intros j x Hj Hx. destruct (Nat.eq_dec j i) as [->|N].
           ++ rewrite nset_same in Hx. destruct (Pa x Hx) as (A & B & C & D). repeat split; auto. apply Al; auto.
           ++ rewrite nset_other in Hx by auto. destruct (v_parts _ _ _ _ V j x Hj Hx) as (A & B & C). repeat split; auto. apply Al. split; auto. congruence.
        -- intros j Hj. destruct (Nat.eq_dec j i) as [->|N]; [rewrite nset_same; apply NoDup_remove_1 in NDp; auto|].
           rewrite nset_other by auto. apply (v_partsnd _ _ _ _ V); auto.
        -- intros j x Hj Hx. destruct (v_caches _ _ _ _ V j x Hj Hx) as (A & B & C & D). destruct (Nat.eq_dec j i) as [->|N].
           ++ rewrite nset_same. destruct (Cp x Hx) as (_ & _ & _ & Y & W). repeat split; auto. apply Al; auto.
           ++ rewrite nset_other by auto. repeat split; auto. apply Al. split; auto. congruence.
        -- intros j Hj. apply (v_cachesnd _ _ _ _ V); auto.
        -- intros x Hx. apply Al in Hx as (Hx & Nx). destruct (v_where _ _ _ _ V x Hx) as [W|[W|W]]; auto.
           left. unfold nset. destruct (Nat.eqb_spec (g_bk g x) i) as [E|]; auto. rewrite E, Hp in W.
           apply in_app_or in W as [W|[W|W]]; [apply in_or_app; auto|congruence|apply in_or_app; auto].
        -- pose proof (v_ext _ _ _ _ V) as E. unfold extents in *. rewrite El. cbn [g_all]. rewrite Ea, map_app in E. cbn [map] in E.
           rewrite <- app_assoc in E. cbn [app] in E.
           eapply Ext_perm in E; [|symmetry; apply Permutation_middle]. apply Ext_del in E.
           rewrite map_app, <- app_assoc. exact E.
        -- apply (v_big _ _ _ _ V).
        -- intros x Hx. destruct (v_live _ _ _ _ V x (Lv x Hx)) as (Zb & Q). split; auto. intros L.
           destruct (Q L) as (y & A & B & C & D & E). exists y. repeat split; auto. apply Al. split; auto. eapply Lst; eauto.
        -- exact Sm.
    + (* other blocks of the slab are in use, and others are free *)
      destruct (putback_ok i s (g_hd g s) (g_fl g s) m h) as (m3 & E3 & O3' & Fr3); auto.
      rewrite E3. exists (smem h m3), (gset g i s (m :: g_fl g s) (g_parts g i) (g_caches g i)). split; auto.
      split; [left; cbn [gset g_parts]; fold i; rewrite nset_same; intros X; rewrite X in Inp; contradiction|].
      rewrite (smem_sbkt h m3 i). fold b.
      assert (Fr : forall x a, In x (g_all g) -> x <> s -> x <= a < x + Slabsz -> m3 a = mem h a).
      { intros x a Hx Nx Ra. destruct (inv_slab _ _ _ _ x V Hx) as (_ & A & _). pose proof (slabs_apart x s A Ms Nx).
        apply Fr3; offs; unfold Slabsz in *; lia. }
      assert (Lk : forall x, In x (g_all g) -> m3 (x + onext) = mem h (x + onext) /\ m3 (x + oprev) = mem h (x + oprev)).
      { intros x Hx. destruct (Z.eq_dec x s) as [->|N]; [split; apply Fr3; offs; lia|].
        split; apply (Fr x); auto; offs; unfold Slabsz; lia. }
      split.
      * apply (Inv_local g h lv pd); auto.
        -- intros s' a Is' Nq Ra _ _. eapply Fr; eauto.
        -- eapply dll_frame; [|exact Dl]. intros y Hy. apply Lk. apply (v_parts _ _ _ _ V i y Hi Hy).
        -- eapply sll_frame; [|exact Sl]. intros y Hy. apply Lk. apply (v_caches _ _ _ _ V i y Hi Hy).
        -- intros x Hx. destruct (v_parts _ _ _ _ V i x Hi Hx) as (A & B & C). repeat split; auto. unfold fset.
           destruct (x =? s); auto. discriminate.
        -- apply (v_partsnd _ _ _ _ V); auto.
        -- intros x Hx. destruct (v_caches _ _ _ _ V i x Hi Hx) as (A & B & C & D). repeat split; auto. unfold fset.
           destruct (x =? s); auto. discriminate.
        -- apply (v_cachesnd _ _ _ _ V); auto.
        -- intros x Hx Bx. destruct (Z.eq_dec x s) as [->|Nx]; [auto|]. rewrite fset_other by auto.
           destruct (v_where _ _ _ _ V x Hx) as [W|[W|W]]; auto; rewrite Bx in W; auto.
      * intros x a Hx Ha. cbn [sbkt mem]. apply Fr3; first [eapply Mt; eauto; offs; lia | eapply Am; eauto].
Qed.

(* With a slab at hand the system is not asked. *)
Lemma bktalloc_reuse os fill g h lv pd sz : Inv g h lv pd -> 0 <= sz <= Bktmax ->
  g_parts g (bktnum sz) <> [] \/ g_caches g (bktnum sz) <> [] -> exists c h', bktalloc os fill (bktnum sz) h = Ok c h'.
Proof.
  intros V Hsz Hn. destruct (bktnum_ok sz Hsz) as (Hi & _).
  destruct (bktalloc_ok (fun _ => None) fill g h lv pd sz V Hsz ltac:(intros n p E; discriminate E)) as [(D & _)|(c & h' & g' & E & _)].
  - exfalso. destruct (v_bkt _ _ _ _ V _ Hi) as (Dl & Sl & Nc). cbn zeta in *. set (i := bktnum sz) in *.
    destruct (g_parts g i) as [|s rest] eqn:Ep.
    + destruct Hn as [X|X]; [contradiction|]. cbn in Dl.
      destruct (g_caches g i) as [|s cs] eqn:Ec; [contradiction|]. cbn [sll] in Sl.
      destruct (mkslab_ok (fun _ => None) fill g h lv pd i V Hi Dl) as [(M & _)|(s' & h' & g' & M & P & _ & V')]; [intros n p E; discriminate E| |].
      * unfold mkslab in M. rewrite bind_getb in M. rewrite (proj2 (Z.ltb_lt 0 _)) in M by (rewrite Nc; cbn [length]; lia).
        destruct (v_caches _ _ _ _ V i s Hi) as (Is & _); [rewrite Ec; left; auto|].
        destruct (inv_slab _ _ _ _ s V Is) as (_ & _ & Mp). destruct Sl as (Es & _). rewrite Es in M.
        rewrite bind_load in M by (apply Mp; offs; unfold Slabsz; lia). rewrite bind_setcache in M.
        rewrite bind_store in M by (cbn [sbkt mapped]; apply Mp; offs; unfold Slabsz; lia). discriminate M.
      * unfold bktalloc in D. rewrite bind_getb, Dl in D. cbn [Z.eqb] in D. unfold bind at 1 in D. rewrite M, bind_setslabs in D.
        destruct (grab_ok _ _ _ _ i s' [] sz V' Hi P Hsz eq_refl) as (c & h2 & g2 & G & _). rewrite G in D. discriminate D.
    + cbn [dll] in Dl. destruct Dl as (Es & N & _). unfold bktalloc in D. rewrite bind_getb in D. rewrite (proj2 (Z.eqb_neq _ 0)) in D by lia.
      destruct (grab_ok _ _ _ _ i s rest sz V Hi Ep Hsz eq_refl) as (c & h2 & g2 & G & _). rewrite Es, G in D. discriminate D.
  - exists c, h'. rewrite <- E. unfold bktalloc in *. rewrite !bind_getb in *.
    destruct (Z.eqb_spec (b_slabs (nth (bktnum sz) (bkts h) bkt0)) 0) as [E0|]; auto.
    unfold bind at 1 in E. unfold bind at 1. unfold bind at 2. unfold mkslab in *. rewrite !bind_getb in *.
    destruct (0 <? _); [reflexivity|]. rewrite bind_nomem in E by auto. discriminate E.
Qed.
