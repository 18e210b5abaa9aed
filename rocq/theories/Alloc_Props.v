(* C67, C68: the memory allocator. *)
From Verif Require Import Base Alloc_Model Alloc_Spec Alloc_Proofs Alloc_Free Alloc_Big.
Open Scope Z_scope.

(* C67: blocks in use never share a byte, nor an address. *)
Theorem C67_apart w l x l' y : reachable w -> live w = l ++ x :: l' -> In y (l ++ l') -> apart x y.
Proof.
  intros R E Hy. destruct (reachable_inv w R) as (g & V). rewrite E in V. pose proof (full_apart _ _ _ _ _ _ _ V Hy) as D.
  assert (Ix : In x (l ++ x :: l')) by (apply in_or_app; right; left; auto).
  assert (Iy : In y (l ++ x :: l')) by (apply in_app_or in Hy as [?|?]; apply in_or_app; cbn; auto).
  destruct (v_live _ _ _ _ V x Ix) as (Zx & _). destruct (v_live _ _ _ _ V y Iy) as (Zy & _).
  pose proof (full_le x Zx). pose proof (full_le y Zy). unfold disj in D. cbn [fst snd] in D. split; [lia|].
  intros a Ha Hb. unfold inblock in *. lia.
Qed.

(* C67: a block in use has a non-null address that is a multiple of 16, and all its bytes may be read and written. *)
Theorem C67_usable w b : reachable w -> In b (live w) ->
  0 < fst b /\ fst b mod 16 = 0 /\ forall a, inblock b a -> mapped (heap w) a = true.
Proof.
  intros R Hb. destruct (reachable_inv w R) as (g & V). destruct (live_addr _ _ _ _ _ V Hb) as (A & B & _).
  repeat split; auto. intros a Ha. eapply live_mapped; eauto.
Qed.

(* C67: allocating never crashes; it gives up only if the system refused memory.  Freeing a block in use always works. *)
Theorem C67_alloc w os fill sz : reachable w -> 0 <= sz -> os_ok os (heap w) ->
  (exists p s, bytealloc os fill sz (heap w) = Ok p s) \/ (bytealloc os fill sz (heap w) = Die /\ exists n, os n = None).
Proof.
  intros R Hs Os. destruct (reachable_inv w R) as (g & V).
  destruct (bytealloc_ok os fill g _ _ _ sz V Hs Os) as [?|(p & s & g' & E & _)]; [auto|left; eauto].
Qed.
Theorem C67_free w p sz : reachable w -> In (p, sz) (live w) -> exists e s, bytefree p sz (heap w) = Ok e s.
Proof.
  intros R I. destruct (reachable_inv w R) as (g & V). apply in_split in I as (l1 & l2 & E). rewrite E in V.
  destruct (bytefree_ok _ _ _ _ _ _ _ V) as (e & s & g' & F & _). eauto.
Qed.

(* C67: neither touches the contents of the other blocks in use. *)
Theorem C67_alloc_keeps w os fill sz p s b a : reachable w -> 0 <= sz -> os_ok os (heap w) -> bytealloc os fill sz (heap w) = Ok p s ->
  In b (live w) -> inblock b a -> mem s a = mem (heap w) a.
Proof.
  intros R Hs Os E Hb Ha. destruct (reachable_inv w R) as (g & V).
  destruct (bytealloc_ok os fill g _ _ _ sz V Hs Os) as [(D & _)|(p' & s' & g' & E' & _ & K)]; [congruence|].
  assert (s' = s) by congruence. subst. eapply K; eauto.
Qed.
Theorem C67_free_keeps w l p sz l' e s b a : reachable w -> live w = l ++ (p, sz) :: l' -> bytefree p sz (heap w) = Ok e s ->
  In b (l ++ l') -> inblock b a -> mem s a = mem (heap w) a.
Proof.
  intros R El E Hb Ha. destruct (reachable_inv w R) as (g & V). rewrite El in V.
  destruct (bytefree_ok _ _ _ _ _ _ _ V) as (e' & s' & g' & F & _ & K). assert (s' = s) by congruence. subst. eapply K; eauto.
Qed.

(* C68: after a block of up to 128 kilobytes is freed, another of that size is had without asking the system. *)
Theorem C68_again w p sz e s os fill : reachable w -> In (p, sz) (live w) -> sz <= 128 * 1024 -> bytefree p sz (heap w) = Ok e s ->
  exists p' s', bytealloc os fill sz s = Ok p' s'.
Proof.
  intros R I L E. destruct (reachable_inv w R) as (g & V). apply in_split in I as (l1 & l2 & El). rewrite El in V.
  assert (I : In (p, sz) (l1 ++ (p, sz) :: l2)) by (apply in_or_app; right; left; auto).
  destruct (live_addr _ _ _ _ _ V I) as (P & _ & Z0). cbn [fst snd] in *. unfold bytefree in E. rewrite (proj2 (Z.eqb_neq p 0)) in E by lia.
  assert (L' : sz <=? Bktmax = true) by (apply Z.leb_le; exact L). rewrite L' in E.
  destruct (bktfree_ok _ _ _ _ _ _ _ V L) as (h' & g' & F & N & V' & _). unfold bind in E. rewrite F in E. injection E as _ <-.
  unfold bytealloc. rewrite L'. eapply bktalloc_reuse; eauto.
Qed.
(* C68: refuted for several blocks: a slab that becomes empty loses the chunk that was freed last. *)
Definition os1 (n : Z) : option Z := if n =? Slabsz * 2 then Some (2 ^ 30) else None.
Definition nothing : Z -> Z := fun _ => 0.
Definition w0 : world := {| heap := initial nothing (fun _ => false); live := []; pend := [] |}.
Definition after {A} (r : out A) : st := match r with Ok _ s => s | _ => heap w0 end.
Definition h1 := after (bytealloc os1 nothing 100000 (heap w0)).
Definition h2 := after (bytealloc (fun _ => None) nothing 100000 h1).
Definition h3 := after (bytealloc (fun _ => None) nothing 100000 h2).
Definition pa := 2 ^ 30 + 48.
Definition pb := 2 ^ 30 + 48 + 128 * 1024.
Definition pc := 2 ^ 30 + 48 + 2 * (128 * 1024).
Definition h4 := after (bytefree pc 100000 h3).
Definition h5 := after (bytefree pb 100000 h4).
Definition h6 := after (bytefree pa 100000 h5).
Definition is_ok {A} (r : out A) (x : A -> bool) : bool := match r with Ok a _ => x a | _ => false end.
Lemma is_ok_after {A} (r : out A) x : is_ok r x = true -> exists a, x a = true /\ r = Ok a (after r).
Proof. destruct r; cbn; intros H; try discriminate H. eauto. Qed.
Lemma alloc_is os sz h p : is_ok (bytealloc os nothing sz h) (Z.eqb p) = true -> bytealloc os nothing sz h = Ok p (after (bytealloc os nothing sz h)).
Proof. intros H. apply is_ok_after in H as (a & E & H). apply Z.eqb_eq in E as ->. exact H. Qed.
Lemma free_is p sz h : is_ok (bytefree p sz h) (fun e => match e with None => true | _ => false end) = true ->
  bytefree p sz h = Ok None (after (bytefree p sz h)).
Proof. intros H. apply is_ok_after in H as (a & E & H). destruct a; [discriminate E|exact H]. Qed.
Lemma r1 : bytealloc os1 nothing 100000 (heap w0) = Ok pa h1.
Proof. apply alloc_is. vm_compute. reflexivity. Qed.
Lemma r2 : bytealloc (fun _ => None) nothing 100000 h1 = Ok pb h2.
Proof. apply alloc_is. vm_compute. reflexivity. Qed.
Lemma r3 : bytealloc (fun _ => None) nothing 100000 h2 = Ok pc h3.
Proof. apply alloc_is. vm_compute. reflexivity. Qed.
Lemma r4 : bytefree pc 100000 h3 = Ok None h4.
Proof. apply free_is. vm_compute. reflexivity. Qed.
Lemma r5 : bytefree pb 100000 h4 = Ok None h5.
Proof. apply free_is. vm_compute. reflexivity. Qed.
Lemma r6 : bytefree pa 100000 h5 = Ok None h6.
Proof. apply free_is. vm_compute. reflexivity. Qed.
Lemma r7 : match allocs [100000; 100000; 100000] h6 with Die => true | _ => false end = true.
Proof. vm_compute. reflexivity. Qed.
Global Opaque h1 h2 h3 h4 h5 h6.
Definition w3 : world := {| heap := h3; live := [(pc, 100000); (pb, 100000); (pa, 100000)]; pend := [] |}.
Lemma w3_filled : filled [100000; 100000; 100000] w3.
Proof.
  assert (N : forall h, os_ok (fun _ => None) h) by (intros h n p E; discriminate E).
  apply (Filled_more _ {| heap := h2; live := [(pb, 100000); (pa, 100000)]; pend := [] |} (fun _ => None) nothing); [|lia|apply N|exact r3].
  apply (Filled_more _ {| heap := h1; live := [(pa, 100000)]; pend := [] |} (fun _ => None) nothing); [|lia|apply N|exact r2].
  apply (Filled_more _ w0 os1 nothing); [apply Filled_none|lia| |exact r1].
  intros n p E. unfold os1 in E. destruct (n =? Slabsz * 2); [|discriminate E]. injection E as <-. repeat split.
Qed.
Lemma filled_reachable szs w : filled szs w -> reachable w /\ map snd (live w) = szs.
Proof.
  induction 1 as [m mp|szs w os fill sz p s F (R & E) Hs Os A]; [split; [constructor|reflexivity]|].
  split; [eapply R_step; [exact R|econstructor; eauto]|]. cbn. congruence.
Qed.
Theorem C68_reuse_refuted : ~ forall szs w, filled szs w -> reuses w.
Proof.
  intros H. destruct (H _ _ w3_filled {| heap := h6; live := []; pend := [] |}) as (ps & s & E); [|reflexivity|].
  - apply (Frees_one w3 [] pc 100000 [(pb, 100000); (pa, 100000)] None h4); [reflexivity|exact r4|].
    apply (Frees_one _ [] pb 100000 [(pa, 100000)] None h5); [reflexivity|exact r5|].
    apply (Frees_one _ [] pa 100000 [] None h6); [reflexivity|exact r6|]. apply Frees_none.
  - pose proof r7 as D. change (map snd (live w3)) with [100000; 100000; 100000] in E.
    cbn [heap] in E. rewrite E in D. discriminate D.
Qed.
(* C68: refuted for one block over 128 kilobytes, even the first: a cached block of just the right size is passed over. *)
Definition osb (n : Z) : option Z := if n =? 1024 * 1024 then Some (2 ^ 30) else None.
Definition k1 := after (bytealloc osb nothing (1024 * 1024) (heap w0)).
Definition k2 := after (bytefree (2 ^ 30) (1024 * 1024) k1).
Lemma q1 : bytealloc osb nothing (1024 * 1024) (heap w0) = Ok (2 ^ 30) k1.
Proof. apply alloc_is. vm_compute. reflexivity. Qed.
Lemma q2 : bytefree (2 ^ 30) (1024 * 1024) k1 = Ok None k2.
Proof. apply free_is. vm_compute. reflexivity. Qed.
Lemma q3 : nth 0 (big k2) (0, 0) = (1024 * 1024, 2 ^ 30) /\ length (big k2) = 32%nat.
Proof. vm_compute. auto. Qed.
Lemma q4 : match allocs [1024 * 1024] k2 with Die => true | _ => false end = true.
Proof. vm_compute. reflexivity. Qed.
Global Opaque k1 k2.
Theorem C68_big_refuted : exists sz w p e s, filled [sz] w /\ live w = [(p, sz)] /\ bytefree p sz (heap w) = Ok e s /\
  In (sz, p) (big s) /\ allocs [sz] s = Die.
Proof.
  exists (1024 * 1024), {| heap := k1; live := [(2 ^ 30, 1024 * 1024)]; pend := [] |}, (2 ^ 30), None, k2.
  split.
  { apply (Filled_more _ w0 osb nothing); [apply Filled_none|lia| |exact q1].
    intros n p E. unfold osb in E. destruct (n =? 1024 * 1024); [|discriminate E]. injection E as <-. repeat split. }
  split; [reflexivity|]. split; [exact q2|]. split.
  - destruct q3 as (A & B). rewrite <- A. apply nth_In. rewrite B. lia.
  - pose proof q4 as D. destruct (allocs [1024 * 1024] k2); try discriminate D. reflexivity.
Qed.

(* Worlds with several blocks in use are reachable, and a system that gives memory meets [os_ok]. *)
Example C67_example : reachable w3 /\ length (live w3) = 3%nat /\ apart (pc, 100000) (pa, 100000) /\ os_ok os1 (heap w0).
Proof.
  assert (R : reachable w3) by (eapply filled_reachable; apply w3_filled). split; auto. split; auto. split.
  - apply (C67_apart w3 [] (pc, 100000) [(pb, 100000); (pa, 100000)]); auto. right; left; auto.
  - intros n p E. unfold os1 in E. destruct (n =? Slabsz * 2); [|discriminate E]. injection E as <-. repeat split.
Qed.
Example C68_example : exists p s, bytealloc (fun _ => None) nothing 100000 h4 = Ok p s.
Proof.
  apply (C68_again w3 pc 100000 None h4); [eapply filled_reachable; apply w3_filled|left; auto|lia|exact r4].
Qed.

Print Assumptions C67_apart.
Print Assumptions C67_usable.
Print Assumptions C67_alloc.
Print Assumptions C67_free.
Print Assumptions C67_alloc_keeps.
Print Assumptions C67_free_keeps.
Print Assumptions C68_again.
Print Assumptions C68_reuse_refuted.
Print Assumptions C68_big_refuted.
