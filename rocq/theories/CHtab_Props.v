(* C04, C05: property theorems about util/htab.c. *)
From Verif Require Import Base OpenAddr_Model CHtab_Model CHtab_Spec CHtab_Proofs.
Open Scope N_scope.

(* C04 as stated ("for every history, htget answers the finite map") is false of this code:
   htput stops at the first dead slot without looking for a live copy of the key further on. *)
(* Put A, Put B (same hash), Del A, Put B again, Del B: B is still found, with its first value *)
Definition collide (k : N) : N := if k =? 100 then 14 else 5.
Lemma collide_ok : ok_hash N.eqb collide.
Proof.
  split.
  - exact N.eqb_refl.
  - exact N.eqb_sym.
  - intros a b c. rewrite !N.eqb_eq. congruence.
  - intros a b. rewrite N.eqb_eq. congruence.
Qed.

Theorem C04_map_after_delete_refuted : exists (hash : N -> N) (cmp : N -> N -> bool) os t,
  ok_hash cmp hash /\ run hash cmp os = Some t /\
  spec cmp os 2 = None /\ htget hash cmp t 2 = Some (Some 20) /\ hthas hash cmp t 2 = Some true.
Proof.
  exists collide, N.eqb, [Put 1 10; Put 2 20; Del 1; Put 2 21; Del 2].
  eexists. split; [exact collide_ok|]. vm_compute. repeat split.
Qed.
Print Assumptions C04_map_after_delete_refuted.

(* Worse: a put can be lost at once, because growing re-inserts a stale duplicate after the new value. *)
Theorem C04_get_after_put_refuted : exists (hash : N -> N) (cmp : N -> N -> bool) os t t',
  ok_hash cmp hash /\ run hash cmp os = Some t /\ htput hash cmp 2 t 2 999 = Some t' /\
  htget hash cmp t' 2 = Some (Some 20).
Proof.
  exists collide, N.eqb,
    [Put 1 10; Put 2 20; Put 3 30; Put 4 40; Put 5 50; Put 6 60; Put 7 70; Put 8 80; Del 1; Put 100 0].
  eexists. eexists. split; [exact collide_ok|]. vm_compute. repeat split.
Qed.
Print Assumptions C04_get_after_put_refuted.

(* What does hold: a history that never overwrites a present key after some key was deleted
   (in particular any history without deletes) gives exactly the finite map: lookups, presence tests,
   and htkeys listing each present key exactly once with the right count. *)
Theorem C04_hash_table_is_a_map_partial :
  forall (K V : Type) (hash : K -> N) (cmp : K -> K -> bool), ok_hash cmp hash ->
  forall os : list (op K V), safe cmp os ->
  exists t, run hash cmp os = Some t /\
  (forall k, htget hash cmp t k = Some (spec cmp os k)) /\
  (forall k, hthas hash cmp t k = Some (match spec cmp os k with Some _ => true | None => false end)) /\
  (let (keys, n) := htkeys t in n = N.of_nat (length keys) /\
     ForallOrdPairs (fun a b => cmp a b = false) keys /\
     forall x, (exists k, In k keys /\ cmp k x = true) <-> spec cmp os x <> None).
Proof. intros K V hash cmp OK os. exact (safe_main hash cmp OK os). Qed.
Print Assumptions C04_hash_table_is_a_map_partial.

Theorem C04_insert_only_is_a_map :
  forall (K V : Type) (hash : K -> N) (cmp : K -> K -> bool), ok_hash cmp hash ->
  forall os : list (op K V), (forall k, ~ In (Del k) os) ->
  exists t, run hash cmp os = Some t /\ forall k, htget hash cmp t k = Some (spec cmp os k).
Proof.
  intros K V hash cmp OK os H.
  destruct (safe_main hash cmp OK os (nodel_safe cmp os H)) as (t & E & G & _). exact (ex_intro _ t (conj E G)).
Qed.
Print Assumptions C04_insert_only_is_a_map.

(* For every history, safe or not, a lookup only returns a value that was put for an equal key. *)
Theorem C04_lookup_returns_only_put_values :
  forall (K V : Type) (hash : K -> N) (cmp : K -> K -> bool), ok_hash cmp hash ->
  forall (os : list (op K V)) t k v, run hash cmp os = Some t -> htget hash cmp t k = Some (Some v) ->
  exists k', In (Put k' v) os /\ cmp k' k = true.
Proof.
  intros K V hash cmp OK os t k v E G. destruct (run_wf hash cmp OK os) as (t2 & E2 & W).
  rewrite E in E2. injection E2 as <-.
  exact (run_sound hash cmp OK os t E k v (htget_sound hash cmp OK t k v W G)).
Qed.
Print Assumptions C04_lookup_returns_only_put_values.

Example C04_example :
  let os := [Put 1 10; Put 2 20; Put 2 22; Del 1; Del 2; Put 2 23; Put 3 30] in
  safe N.eqb os /\
  option_map (fun t => (htget collide N.eqb t 1, htget collide N.eqb t 2, htget collide N.eqb t 3, htkeys t)) (run collide N.eqb os)
  = Some (Some None, Some (Some 23), Some (Some 30), ([2; 3], 2)).
Proof. split; [vm_compute; intuition discriminate|vm_compute; reflexivity]. Qed.

(* C05: every operation terminates in every reachable table, which always has a never-used slot. *)
Theorem C05_operations_terminate :
  forall (K V : Type) (hash : K -> N) (cmp : K -> K -> bool), ok_hash cmp hash ->
  forall os : list (op K V), exists t, run hash cmp os = Some t /\
  forall k, htget hash cmp t k <> None /\ hthas hash cmp t k <> None /\ htdel hash cmp t k <> None /\
    (forall v, htput hash cmp 2 t k v <> None) /\ In None (slots t).
Proof. intros K V hash cmp OK os. exact (total_main hash cmp OK os). Qed.
Print Assumptions C05_operations_terminate.

Example C05_example :
  exists t, run collide N.eqb (flat_map (fun n => [Put (N.of_nat n) 0; Del (N.of_nat n)]) (seq 0 40)) = Some t /\
  htget collide N.eqb t 7 = Some None.
Proof. eexists. vm_compute. split; reflexivity. Qed.
