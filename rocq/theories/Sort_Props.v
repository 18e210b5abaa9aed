(* C30 (sort) and C31 (lsearch, bsearch). *)
From Verif Require Import Base Sort_Model Sort_Spec Sort_Proofs.

Lemma at_nth_error {A} (d : A) l i x : nth_error l i = Some x -> at_ d l i = x.
Proof. intros H. unfold at_. now apply nth_error_nth. Qed.

(* C30: for every slice and every ordering comparison, sort terminates, and leaves the same elements (with their
   multiplicities) in ascending order. *)
Lemma sort_correct {A} (cmp : A -> A -> order) (d : A) (sl : list A) : orders cmp ->
  exists sl', sort cmp d sl = Some sl' /\ Permutation sl sl' /\ ascending cmp sl'.
Proof.
  intros [H1 H2]. destruct (sort_spec cmp d H1 H2 sl) as (l' & E & P & S). exists l'. split; auto. split; auto.
  intros i j x y Hij Hx Hy. assert (j < length l') by (apply nth_error_Some; congruence).
  specialize (S i j ltac:(lia)). now rewrite (at_nth_error d l' i x Hx), (at_nth_error d l' j y Hy) in S.
Qed.
Theorem C30_sort_sorts {A} (cmp : A -> A -> order) (d : A) (sl : list A) : orders cmp ->
  exists sl', sort cmp d sl = Some sl' /\ Permutation sl sl' /\ ascending cmp sl'.
Proof. exact (sort_correct cmp d sl). Qed.
Print Assumptions C30_sort_sorts.

(* numcmp of lib/std/cmp.myr on natural numbers orders them *)
Definition natcmp (a b : nat) : order := if a <? b then Before else if b <? a then After else Equal.
Lemma natcmp_orders : orders natcmp.
Proof.
  unfold natcmp; split; intros; repeat (match goal with |- context [?a <? ?b] => destruct (Nat.ltb_spec a b) | H : context [?a <? ?b] |- _ => destruct (Nat.ltb_spec a b) end); try lia; try (split; congruence); try congruence; try (intro; congruence).
Qed.
Example C30_case : orders natcmp /\ sort natcmp 0 [3;1;4;1;5;9;2;6] = Some [1;1;2;3;4;5;6;9].
Proof. split; [exact natcmp_orders|reflexivity]. Qed.

(* C30: sort runs to completion even when the comparison does not order anything, and never loses or
   duplicates an element. *)
Lemma siftdown_any {A} (cmp : A -> A -> order) (d : A) fuel : forall l n r, n <= length l -> n - r < fuel ->
  exists l', siftdown cmp d fuel l n r = Some l' /\ length l' = length l /\ Permutation l l'.
Proof.
  induction fuel as [|fuel IH]; intros l n r Hn Hf; [lia|]. cbn [siftdown].
  destruct (Nat.ltb_spec (2 * r + 1) n) as [Hc|Hc]; [|eauto].
  set (s := if 2 * r + 1 + 1 <? n then _ else _).
  assert (D : s = r \/ (r < s /\ s < n)).
  { unfold s. destruct (before cmp (at_ d l r) _); destruct (Nat.ltb_spec (2 * r + 1 + 1) n); try destruct (before cmp _ _); lia. }
  clearbody s. destruct (Nat.eqb_spec s r) as [->|Hne]; [eauto|]. destruct D as [D|[D1 D2]]; [congruence|].
  destruct (IH (swap d l r s) n s) as (l' & -> & L & P); rewrite ?swap_length; try lia.
  exists l'. split; auto. rewrite swap_length in L. split; auto. etransitivity; [|exact P]. apply swap_perm; lia.
Qed.
Lemma heapify_any {A} (cmp : A -> A -> order) (d : A) k : forall l,
  exists l', heapify_loop cmp d l k = Some l' /\ length l' = length l /\ Permutation l l'.
Proof.
  induction k as [|k IH]; intros l; cbn [heapify_loop]; [eauto|].
  destruct (siftdown_any cmp d (S (length l)) l (length l) k) as (l1 & -> & L & P); try lia.
  destruct (IH l1) as (l' & -> & L' & P'). exists l'. split; auto. split; [lia|]. etransitivity; eauto.
Qed.
Lemma sort_loop_any {A} (cmp : A -> A -> order) (d : A) e : forall l, e < length l ->
  exists l', sort_loop cmp d l e = Some l' /\ Permutation l l'.
Proof.
  induction e as [|e IH]; intros l H; cbn [sort_loop]; [eauto|].
  destruct (siftdown_any cmp d (S (length l)) (swap d l (S e) 0) (e + 1) 0) as (l1 & -> & L & P); rewrite ?swap_length; try lia.
  rewrite swap_length in L. destruct (IH l1) as (l' & -> & P'); [lia|]. exists l'. split; auto.
  etransitivity; [|exact P']. etransitivity; [|exact P]. apply swap_perm; lia.
Qed.
Lemma sort_any {A} (cmp : A -> A -> order) (d : A) (sl : list A) : exists sl', sort cmp d sl = Some sl' /\ Permutation sl sl'.
Proof.
  unfold sort, heapify. destruct (heapify_any cmp d (length sl / 2) sl) as (h & -> & L & P).
  destruct (Nat.eq_dec (length h) 0) as [Z|Z].
  - rewrite Z. cbn. eauto.
  - destruct (sort_loop_any cmp d (length h - 1) h) as (l' & -> & P'); [lia|]. exists l'. split; auto. etransitivity; eauto.
Qed.
Theorem C30_sort_permutes {A} (cmp : A -> A -> order) (d : A) (sl : list A) :
  exists sl', sort cmp d sl = Some sl' /\ Permutation sl sl'.
Proof. exact (sort_any cmp d sl). Qed.
Print Assumptions C30_sort_permutes.

Open Scope Z_scope.
(* C31: lsearch returns the first element that compares Equal, or none when there is none. *)
Lemma lsearch_correct {T K} (cmp : T -> K -> order) sl key :
  match lsearch cmp sl key with
  | Some i => exists x, element sl i x /\ cmp x key = Equal /\ forall j y, j < i -> element sl j y -> cmp y key <> Equal
  | None => forall i x, element sl i x -> cmp x key <> Equal
  end.
Proof.
  unfold lsearch. pose proof (lsearch_from_spec cmp key sl 0) as H. destruct (lsearch_from cmp sl key 0) as [r|].
  - destruct H as (k & x & -> & H1 & H2 & H3). exists x. split; [split; [lia|]|].
    + now replace (Z.to_nat (0 + Z.of_nat k)) with k by lia.
    + split; auto. intros j y Hj [Hj0 Hy]. apply (H3 (Z.to_nat j)); auto. lia.
  - intros i x [Hi Hx]. apply H. eapply nth_error_In; eauto.
Qed.
Theorem C31_lsearch_finds_first {T K} (cmp : T -> K -> order) sl key :
  match lsearch cmp sl key with
  | Some i => exists x, element sl i x /\ cmp x key = Equal /\ forall j y, j < i -> element sl j y -> cmp y key <> Equal
  | None => forall i x, element sl i x -> cmp x key <> Equal
  end.
Proof. exact (lsearch_correct cmp sl key). Qed.
Print Assumptions C31_lsearch_finds_first.

(* C31: bsearch never indexes outside the slice and looks at fewer than log2 n + 2 elements; what it finds compares
   Equal; and when the slice is arranged for the key, not finding anything means nothing compares Equal. *)
Lemma bsearch_correct {T K} (cmp : T -> K -> order) sl key (k : nat) : Z.of_nat (length sl) < 2 ^ Z.of_nat k ->
  match bsearch cmp (S k) sl key with
  | Found i => exists x, element sl i x /\ cmp x key = Equal
  | NotFound => arranged cmp sl key -> forall i x, element sl i x -> cmp x key <> Equal
  | OutOfBounds | OutOfFuel => False
  end.
Proof.
  intros Hk. unfold bsearch. pose proof (bsearch_safe cmp key sl k 0 (Z.of_nat (length sl) - 1) ltac:(lia) ltac:(lia) ltac:(lia)) as H.
  destruct (bsearch_loop _ _ _ _ _ _); auto.
  - destruct H as [H1 (x & H2 & H3)]. exists x. repeat split; auto. lia.
  - intros S i x [Hi Hx]. apply (H S (Z.to_nat i)); auto. assert (Z.to_nat i < length sl)%nat by (apply nth_error_Some; congruence). lia.
Qed.
Theorem C31_bsearch_correct {T K} (cmp : T -> K -> order) sl key (k : nat) : Z.of_nat (length sl) < 2 ^ Z.of_nat k ->
  match bsearch cmp (S k) sl key with
  | Found i => exists x, element sl i x /\ cmp x key = Equal
  | NotFound => arranged cmp sl key -> forall i x, element sl i x -> cmp x key <> Equal
  | OutOfBounds | OutOfFuel => False
  end.
Proof. exact (bsearch_correct cmp sl key k). Qed.
Print Assumptions C31_bsearch_correct.

(* an ascending slice is arranged for every key of its own element type *)
Lemma ascending_arranged {A} (cmp : A -> A -> order) sl key : orders cmp -> ascending cmp sl -> arranged cmp sl key.
Proof.
  intros [F T] As i j x y Hij Hx Hy.
  assert (L : cmp x y <> After).
  { destruct (Nat.eq_dec i j) as [->|Hne]; [|apply (As i j); auto; lia].
    assert (x = y) by congruence. subst y. intros Q. pose proof (proj2 (F x x) Q). congruence. }
  split; intros E.
  - destruct (cmp x key) eqn:C; auto; exfalso.
    + assert (Q : cmp key x <> After) by (rewrite <- F; congruence). apply (T key x y Q L). now apply F.
    + assert (Q : cmp y key <> After) by congruence. now apply (T x y key L Q).
  - destruct (cmp y key) eqn:C; auto; exfalso.
    + apply (T x y key L); congruence.
    + apply (T x y key L); congruence.
Qed.
(* C31: together with C30: searching what sort produced finds a key exactly when it was in the slice sorted *)
Lemma bsearch_sorted {A} (cmp : A -> A -> order) (d : A) sl sl' key (k : nat) : orders cmp -> sort cmp d sl = Some sl' ->
  Z.of_nat (length sl) < 2 ^ Z.of_nat k ->
  ((exists i, bsearch cmp (S k) sl' key = Found i) <-> exists x, In x sl /\ cmp x key = Equal).
Proof.
  intros O E Hk. destruct (sort_correct cmp d sl O) as (l & E' & P & As). assert (l = sl') by congruence. subst l.
  rewrite (Permutation_length P) in Hk. pose proof (bsearch_correct cmp sl' key k Hk) as B. split.
  - intros [i Hi]. rewrite Hi in B. destruct B as (x & [_ Hx] & C). exists x. split; auto.
    apply nth_error_In in Hx. eapply Permutation_in; [apply Permutation_sym|]; eauto.
  - intros (x & Hx & C). apply (Permutation_in _ P) in Hx. apply In_nth_error in Hx. destruct Hx as [n Hn].
    destruct (bsearch cmp (S k) sl' key); eauto; try contradiction.
    exfalso. apply (B (ascending_arranged cmp sl' key O As) (Z.of_nat n) x); auto. split; [lia|]. now rewrite Nat2Z.id.
Qed.
Theorem C31_bsearch_after_sort {A} (cmp : A -> A -> order) (d : A) sl sl' key (k : nat) : orders cmp -> sort cmp d sl = Some sl' ->
  Z.of_nat (length sl) < 2 ^ Z.of_nat k ->
  ((exists i, bsearch cmp (S k) sl' key = Found i) <-> exists x, In x sl /\ cmp x key = Equal).
Proof. exact (bsearch_sorted cmp d sl sl' key k). Qed.
Print Assumptions C31_bsearch_after_sort.

Example C31_case : arranged natcmp [1;2;2;3;5]%nat 3%nat /\ bsearch natcmp 4 [1;2;2;3;5]%nat 3%nat = Found 3 /\
  bsearch natcmp 4 [1;2;2;3;5]%nat 4%nat = NotFound /\ lsearch natcmp [1;2;2;3;5]%nat 2%nat = Some 1.
Proof.
  split; [|repeat split; reflexivity]. apply ascending_arranged; [exact natcmp_orders|].
  intros i j x y Hij Hx Hy. do 5 (destruct i as [|i]; [do 5 (destruct j as [|j]; [cbn in *; try lia; injection Hx as <-; injection Hy as <-; discriminate|]); destruct j; discriminate|]). destruct i; discriminate.
Qed.
