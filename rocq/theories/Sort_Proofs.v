From Verif Require Import Base Sort_Model.
Ltac Zify.zify_post_hook ::= Z.div_mod_to_equations.

Section W.
Context {A : Type} (d : A).
Notation "l # i" := (at_ d l i) (at level 9).
Lemma swap_length l i j : length (swap d l i j) = length l.
Proof. unfold swap. now rewrite !upd_length. Qed.
Lemma swap_at l i j k : i < length l -> j < length l ->
  (swap d l i j)#k = if k =? j then l#i else if k =? i then l#j else l#k.
Proof.
  intros Hi Hj. unfold swap, at_. rewrite !nth_upd, upd_length. rewrite (Nat.eqb_sym k j), (Nat.eqb_sym k i).
  apply Nat.ltb_lt in Hi, Hj. rewrite Hi, Hj, !andb_true_r. reflexivity.
Qed.

Lemma swap_perm l i j : i < length l -> j < length l -> Permutation l (swap d l i j).
Proof.
  intros Hi Hj. apply (Permutation_nth l (swap d l i j) d). cbv zeta. split; [apply swap_length|].
  exists (fun k => if k =? j then i else if k =? i then j else k). split; [|split].
  - intros k Hk. destruct (Nat.eqb_spec k j), (Nat.eqb_spec k i); lia.
  - intros a b Ha Hb. destruct (Nat.eqb_spec a j), (Nat.eqb_spec a i), (Nat.eqb_spec b j), (Nat.eqb_spec b i); lia.
  - intros k Hk. pose proof (swap_at l i j k Hi Hj) as E. unfold at_ in E. rewrite E.
    destruct (Nat.eqb_spec k j), (Nat.eqb_spec k i); auto.
Qed.

End W.

Section S.
Context {A : Type} (cmp : A -> A -> order) (d : A).
Hypothesis cmp_flip : forall a b, cmp a b = Before <-> cmp b a = After.
Hypothesis cmp_trans : forall a b c, cmp a b <> After -> cmp b c <> After -> cmp a c <> After.
Notation le a b := (cmp a b <> After).
Notation "l # i" := (at_ d l i) (at level 9).

Lemma le_refl a : le a a.
Proof. intros H. pose proof (proj2 (cmp_flip a a) H). congruence. Qed.
Lemma before_true a b : before cmp a b = true -> le a b.
Proof. unfold before. destruct (cmp a b) eqn:E; congruence. Qed.
Lemma before_false a b : before cmp a b = false -> le b a.
Proof. unfold before. destruct (cmp a b) eqn:E; try discriminate; intros _ H; apply (proj2 (cmp_flip a b)) in H; congruence. Qed.

(* heap on sl[:n] for parents >= lo, except that r may violate it *)
Definition child (i c : nat) := c = 2 * i + 1 \/ c = 2 * i + 2.
Definition heap_but (l : list A) (n lo r : nat) : Prop :=
  (forall i c, lo <= i -> i <> r -> child i c -> c < n -> le (l#c) (l#i)) /\
  (forall p c, lo <= p -> child p r -> child r c -> c < n -> le (l#c) (l#p)).
Definition heap (l : list A) (n lo : nat) : Prop := forall i c, lo <= i -> child i c -> c < n -> le (l#c) (l#i).

(* what siftdown leaves untouched *)
Definition frame (l l' : list A) (n : nat) : Prop :=
  length l' = length l /\ Permutation l l' /\ (forall i, n <= i -> l'#i = l#i) /\
  (forall i, i < n -> exists j, j < n /\ l'#i = l#j).
Lemma frame_refl l n : frame l l n.
Proof. repeat split; auto. intros i H; exists i; auto. Qed.
Lemma frame_trans l m k n : frame l m n -> frame m k n -> frame l k n.
Proof.
  intros (A1 & A2 & A3 & A4) (B1 & B2 & B3 & B4). repeat split; [congruence|etransitivity; eauto| |].
  - intros i H. now rewrite B3, A3.
  - intros i H. destruct (B4 i H) as (j & Hj & E). destruct (A4 j Hj) as (q & Hq & E'). exists q. split; auto. congruence.
Qed.
Lemma frame_swap l n i j : n <= length l -> i < n -> j < n -> frame l (swap d l i j) n.
Proof.
  intros Hn Hi Hj. split; [apply swap_length|]. split; [apply swap_perm; lia|]. split.
  - intros k Hk. rewrite swap_at by lia. destruct (Nat.eqb_spec k j), (Nat.eqb_spec k i); auto; lia.
  - intros k Hk. rewrite swap_at by lia. destruct (Nat.eqb_spec k j); [exists i; auto|]. destruct (Nat.eqb_spec k i); [exists j; auto|]. exists k; auto.
Qed.

Lemma siftdown_spec fuel : forall l n lo r, n <= length l -> n - r < fuel -> lo <= r -> heap_but l n lo r ->
  exists l', siftdown cmp d fuel l n r = Some l' /\ heap l' n lo /\ frame l l' n.
Proof.
  induction fuel as [|fuel IH]; intros l n lo r Hn Hf Hlo [H1 H2]; [lia|]. cbn [siftdown].
  destruct (Nat.ltb_spec (2 * r + 1) n) as [Hc|Hc].
  2:{ exists l. split; auto. split; [|apply frame_refl]. intros i c Hi Hch Hcn.
      destruct (Nat.eq_dec i r) as [->|Hne]; [unfold child in Hch; lia|]. now apply H1. }
  set (s1 := if before cmp (l#r) (l#(2 * r + 1)) then 2 * r + 1 else r).
  assert (S1 : (s1 = r \/ s1 = 2 * r + 1) /\ le (l#r) (l#s1) /\ le (l#(2 * r + 1)) (l#s1)).
  { unfold s1. destruct (before cmp _ _) eqn:B; [apply before_true in B|apply before_false in B]; repeat split; auto using le_refl. }
  clearbody s1.
  remember (if 2 * r + 1 + 1 <? n then (if before cmp (l#s1) (l#(2 * r + 1 + 1)) then 2 * r + 1 + 1 else s1) else s1) as s eqn:Es.
  assert (S2 : (s = r \/ child r s) /\ s < n /\ le (l#r) (l#s) /\ forall c, child r c -> c < n -> le (l#c) (l#s)).
  { destruct S1 as (D & L1 & L2). unfold child. destruct (Nat.ltb_spec (2 * r + 1 + 1) n) as [Hc2|Hc2].
    - destruct (before cmp _ _) eqn:B; [apply before_true in B|apply before_false in B]; subst s.
      + split; [right; lia|]. split; [lia|]. split; [eapply cmp_trans; eauto|].
        intros c [->| ->] _; [eapply cmp_trans; eauto|]. replace (2 * r + 2) with (2 * r + 1 + 1) by lia. apply le_refl.
      + split; [lia|]. split; [lia|]. split; auto. intros c [->| ->] _; auto. now replace (2 * r + 2) with (2 * r + 1 + 1) by lia.
    - subst s. split; [lia|]. split; [lia|]. split; auto. intros c [->| ->] Hcn; auto. lia. }
  clear S1 Es s1. destruct S2 as (D & Hsn & Lr & Lc).
  destruct (Nat.eqb_spec s r) as [->|Hsr].
  - exists l. split; auto. split; [|apply frame_refl]. intros i c Hi Hch Hcn.
    destruct (Nat.eq_dec i r) as [->|Hne]; [now apply Lc|]. now apply H1.
  - destruct D as [D|D]; [congruence|].
    assert (Hs : r < s) by (unfold child in D; lia).
    destruct (IH (swap d l r s) n lo s) as (l' & E & Hp & F).
    + now rewrite swap_length.
    + lia.
    + lia.
    + split.
      * intros i c Hi Hne Hch Hcn. rewrite !swap_at by lia.
        destruct (Nat.eqb_spec i s); [congruence|]. clear n0.
        destruct (Nat.eqb_spec i r) as [->|Hir].
        -- destruct (Nat.eqb_spec c s); auto. destruct (Nat.eqb_spec c r); [unfold child in Hch; lia|]. now apply Lc.
        -- destruct (Nat.eqb_spec c s) as [->|]; [unfold child in *; lia|].
           destruct (Nat.eqb_spec c r) as [->|]; [now apply (H2 i s)|now apply H1].
      * intros p c Hp Hps Hsc Hcn. assert (p = r) by (unfold child in *; lia). subst p.
        rewrite !swap_at by lia. destruct (Nat.eqb_spec c s); [unfold child in *; lia|]. destruct (Nat.eqb_spec c r); [unfold child in *; lia|].
        destruct (Nat.eqb_spec r s); [lia|]. rewrite Nat.eqb_refl. apply H1; auto; lia.
    + exists l'. split; auto. split; auto. eapply frame_trans; [|exact F]. apply frame_swap; lia.
Qed.

Lemma heapify_spec k : forall l, heap l (length l) k -> exists l', heapify_loop cmp d l k = Some l' /\ heap l' (length l') 0 /\ Permutation l l'.
Proof.
  induction k as [|k IH]; intros l H; cbn [heapify_loop]; [eauto|].
  destruct (siftdown_spec (S (length l)) l (length l) k k) as (l1 & -> & Hp & F); try lia.
  - split.
    + intros i c Hi Hne. apply H. lia.
    + intros p c Hp Hc. unfold child in Hc. lia.
  - destruct F as (L & P & _). destruct (IH l1) as (l' & E & H' & P'); [now rewrite L|].
    exists l'. split; auto. split; auto. etransitivity; eauto.
Qed.

Lemma heap_top l n : heap l n 0 -> forall i, i < n -> le (l#i) (l#0).
Proof.
  intros H i. induction i as [i IH] using (well_founded_induction lt_wf). intros Hi.
  destruct (Nat.eq_dec i 0) as [->|Hne]; [apply le_refl|].
  apply (cmp_trans _ (l#((i - 1) / 2))).
  - apply (H ((i - 1) / 2) i); [lia| |lia]. unfold child. lia.
  - apply IH; lia.
Qed.

(* sl[:e+1] is a heap; the rest is sorted and not below it *)
Lemma sort_loop_spec e : forall l, e < length l -> heap l (e + 1) 0 ->
  (forall i j, i < j < length l -> e < j -> le (l#i) (l#j)) ->
  exists l', sort_loop cmp d l e = Some l' /\ Permutation l l' /\ (forall i j, i < j < length l' -> le (l'#i) (l'#j)).
Proof.
  induction e as [|e IH]; intros l He Hp Hs; cbn [sort_loop].
  - exists l. repeat split; auto. intros i j Hij. apply Hs; lia.
  - set (l0 := swap d l (S e) 0).
    assert (L0 : length l0 = length l) by apply swap_length.
    assert (At : forall k, l0#k = if k =? 0 then l#(S e) else if k =? S e then l#0 else l#k) by (intros; apply swap_at; lia).
    destruct (siftdown_spec (S (length l)) l0 (e + 1) 0 0) as (l1 & E & H1 & (F1 & F2 & F3 & F4)); try lia.
    + split.
      * intros i c Hi Hne Hch Hc. rewrite !At.
        destruct (Nat.eqb_spec c 0); [unfold child in Hch; lia|]. destruct (Nat.eqb_spec c (S e)); [lia|].
        destruct (Nat.eqb_spec i 0); [lia|]. destruct (Nat.eqb_spec i (S e)); [unfold child in Hch; lia|]. apply Hp; auto. lia.
      * intros p c _ Hp0. unfold child in Hp0. lia.
    + rewrite E. destruct (IH l1) as (l' & E' & P' & S'); try lia.
      * exact H1.
      * intros i j Hij Hej. rewrite (F3 j) by lia.
        assert (Lj : forall q, q <= S e -> le (l#q) (l0#j)).
        { intros q Hq. rewrite At. destruct (Nat.eqb_spec j 0); [lia|]. destruct (Nat.eqb_spec j (S e)).
          - apply (heap_top l (S e + 1)); auto. lia.
          - apply Hs; lia. }
        destruct (Nat.lt_ge_cases i (e + 1)) as [Hi|Hi].
        -- destruct (F4 i Hi) as (q & Hq & Eq). rewrite Eq, At. destruct (Nat.eqb_spec q 0); [apply Lj; lia|].
           destruct (Nat.eqb_spec q (S e)); [lia|]. apply Lj; lia.
        -- rewrite (F3 i) by lia. rewrite !At.
           destruct (Nat.eqb_spec i 0); [lia|]. destruct (Nat.eqb_spec j 0); [lia|]. destruct (Nat.eqb_spec j (S e)); [lia|].
           destruct (Nat.eqb_spec i (S e)); [apply Hs; lia|]. apply Hs; lia.
      * exists l'. split; auto. split; auto. etransitivity; [|exact P']. etransitivity; [|exact F2]. apply swap_perm; lia.
Qed.

Lemma sort_spec l : exists l', sort cmp d l = Some l' /\ Permutation l l' /\ forall i j, i < j < length l' -> le (l'#i) (l'#j).
Proof.
  unfold sort, heapify. destruct (heapify_spec (length l / 2) l) as (h & -> & Hh & Ph).
  - intros i c Hi Hch Hc. unfold child in Hch. lia.
  - destruct (Nat.eq_dec (length h) 0) as [Z|Z].
    + rewrite Z. cbn. exists h. repeat split; auto. intros i j Hij. lia.
    + destruct (sort_loop_spec (length h - 1) h) as (l' & E & P & S); try lia.
      * replace (length h - 1 + 1) with (length h) by lia. exact Hh.
      * exists l'. split; auto. split; auto. etransitivity; eauto.
Qed.
End S.

(* ---------- search ---------- *)
Section Q.
Context {T K : Type} (cmp : T -> K -> order) (key : K).
Open Scope Z_scope.

Lemma lsearch_from_spec sl : forall i, match lsearch_from cmp sl key i with
  | Some r => exists k x, r = i + Z.of_nat k /\ nth_error sl k = Some x /\ cmp x key = Equal /\
                forall k' x', (k' < k)%nat -> nth_error sl k' = Some x' -> cmp x' key <> Equal
  | None => forall x, In x sl -> cmp x key <> Equal
  end.
Proof.
  induction sl as [|x sl IH]; intros i; cbn [lsearch_from]; [tauto|].
  destruct (cmp x key) eqn:E.
  - specialize (IH (i + 1)). destruct (lsearch_from cmp sl key (i + 1)) as [r|].
    + destruct IH as (k & y & -> & H1 & H2 & H3). exists (S k), y. split; [lia|]. repeat split; auto.
      intros [|k'] x' Hk Hx; [cbn in Hx; congruence|]. apply (H3 k'); auto. lia.
    + intros y [->|Hy]; [congruence|auto].
  - exists 0%nat, x. split; [lia|]. repeat split; auto. intros; lia.
  - specialize (IH (i + 1)). destruct (lsearch_from cmp sl key (i + 1)) as [r|].
    + destruct IH as (k & y & -> & H1 & H2 & H3). exists (S k), y. split; [lia|]. repeat split; auto.
      intros [|k'] x' Hk Hx; [cbn in Hx; congruence|]. apply (H3 k'); auto. lia.
    + intros y [->|Hy]; [congruence|auto].
Qed.

(* elements Before the key come first, elements After it come last *)
Definition sorted_for (sl : list T) : Prop := forall i j x y, (i <= j)%nat -> nth_error sl i = Some x -> nth_error sl j = Some y ->
  (cmp y key = Before -> cmp x key = Before) /\ (cmp x key = After -> cmp y key = After).

Lemma bsearch_safe sl : forall fuel lo hi, 0 <= lo -> hi < Z.of_nat (length sl) -> hi - lo + 1 < 2 ^ Z.of_nat fuel ->
  match bsearch_loop cmp (S fuel) sl key lo hi with
  | Found i => lo <= i <= hi /\ exists x, nth_error sl (Z.to_nat i) = Some x /\ cmp x key = Equal
  | NotFound => sorted_for sl -> forall i x, lo <= Z.of_nat i <= hi -> nth_error sl i = Some x -> cmp x key <> Equal
  | _ => False
  end.
Proof.
  induction fuel as [|fuel IH]; intros lo hi Hlo Hhi Hf.
  { change (2 ^ Z.of_nat 0) with 1 in Hf. cbn [bsearch_loop]. destruct (Z.leb_spec lo hi); [lia|]. intros _ i x Hi; lia. }
  remember (S fuel) as fuel' eqn:Ef. cbn [bsearch_loop]. subst fuel'.
  assert (P2 : 2 ^ Z.of_nat (S fuel) = 2 * 2 ^ Z.of_nat fuel) by (rewrite Nat2Z.inj_succ, Z.pow_succ_r; lia).
  assert (P1 : 0 < 2 ^ Z.of_nat fuel) by lia. rewrite P2 in Hf.
  destruct (Z.leb_spec lo hi) as [Hle|Hgt]; [|intros _ i x Hi; lia].
  rewrite Z.quot_div_nonneg by lia. set (mid := (hi + lo) / 2). assert (Hm : lo <= mid <= hi) by lia.
  destruct (Z.ltb_spec mid 0); [lia|]. destruct (Z.leb_spec (Z.of_nat (length sl)) mid); [lia|]. cbn [orb].
  destruct (nth_error sl (Z.to_nat mid)) as [x|] eqn:Ex; [|apply nth_error_None in Ex; lia].
  destruct (cmp x key) eqn:Ec.
  - specialize (IH (mid + 1) hi ltac:(lia) ltac:(lia) ltac:(lia)).
    destruct (bsearch_loop cmp (S fuel) sl key (mid + 1) hi); auto.
    + destruct IH as [H1 H2]. split; [lia|auto].
    + intros So i y Hi Hy. destruct (Z.le_gt_cases (mid + 1) (Z.of_nat i)) as [G|G]; [apply (IH So i y); auto; lia|].
      destruct (So i (Z.to_nat mid) y x ltac:(lia) Hy Ex) as [Q _]. rewrite Q; auto. discriminate.
  - split; [lia|]. exists x. auto.
  - specialize (IH lo (mid - 1) ltac:(lia) ltac:(lia) ltac:(lia)).
    destruct (bsearch_loop cmp (S fuel) sl key lo (mid - 1)); auto.
    + destruct IH as [H1 H2]. split; [lia|auto].
    + intros So i y Hi Hy. destruct (Z.le_gt_cases (Z.of_nat i) (mid - 1)) as [G|G]; [apply (IH So i y); auto; lia|].
      destruct (So (Z.to_nat mid) i x y ltac:(lia) Ex Hy) as [_ Q]. rewrite Q; auto. discriminate.
Qed.
End Q.
