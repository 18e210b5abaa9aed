(* C28: property theorems about lib/std/htab.myr. *)
From Verif Require Import Base OpenAddr_Model SHtab_Model SHtab_Spec SHtab_Proofs.
Open Scope N_scope.

Definition collide (k : N) : N := if k =? 100 then 20 else 5.
Lemma collide_ok : ok_hash N.eqb collide.
Proof.
  split.
  - exact N.eqb_refl.
  - exact N.eqb_sym.
  - intros a b c. rewrite !N.eqb_eq. congruence.
  - intros a b. rewrite N.eqb_eq. congruence.
Qed.

(* C28 as stated is false: htput fills the first dead slot without searching further for the key,
   so an overwritten key exists twice and reappears after it is deleted. *)
Theorem C28_map_after_delete_refuted : exists (hash : N -> N) (eq : N -> N -> bool) os t,
  ok_hash eq hash /\ run hash eq os = Some t /\
  spec eq os 2 = None /\ htget hash eq t 2 = Some (Some 20) /\ htcount t = 1.
Proof.
  exists collide, N.eqb, [Put 1 10; Put 2 20; Del 1; Put 2 21; Del 2].
  eexists. split; [exact collide_ok|]. vm_compute. repeat split.
Qed.
Print Assumptions C28_map_after_delete_refuted.

(* a put can be lost immediately when it triggers a resize *)
Theorem C28_get_after_put_refuted : exists (hash : N -> N) (eq : N -> N -> bool) os t t',
  ok_hash eq hash /\ run hash eq os = Some t /\ htput hash eq 1 t 2 999 = Some t' /\
  htget hash eq t' 2 = Some (Some 0).
Proof.
  exists collide, N.eqb, (map (fun n => Put (N.of_nat n) 0) (seq 1 16) ++ [Del 1; Put 100 0]).
  eexists. eexists. split; [exact collide_ok|]. vm_compute. repeat split.
Qed.
Print Assumptions C28_get_after_put_refuted.

(* What holds: histories that never overwrite a present key after a deletion behave as the map; get, getv,
   has, count, iteration and htkeys agree with it, each key enumerated once. *)
Theorem C28_hash_table_is_a_map_partial :
  forall (K V : Type) (hash : K -> N) (eq : K -> K -> bool), ok_hash eq hash ->
  forall os : list (op K V), safe eq os ->
  exists t, run hash eq os = Some t /\
  (forall k, htget hash eq t k = Some (spec eq os k)) /\
  (forall k d, htgetv hash eq t k d = Some (match spec eq os k with Some v => v | None => d end)) /\
  (forall k, hthas hash eq t k = Some (match spec eq os k with Some _ => true | None => false end)) /\
  exists kvs, iterate (S (length (slots t))) t 0 = Some kvs /\
     htkeys t = Some (map fst kvs) /\ htcount t = N.of_nat (length kvs) /\
     ForallOrdPairs (fun a b => eq (fst a) (fst b) = false) kvs /\
     forall x v, (exists k, In (k, v) kvs /\ eq k x = true) <-> spec eq os x = Some v.
Proof. intros K V hash eq OK os. exact (safe_main hash eq OK os). Qed.
Print Assumptions C28_hash_table_is_a_map_partial.

Theorem C28_insert_only_is_a_map :
  forall (K V : Type) (hash : K -> N) (eq : K -> K -> bool), ok_hash eq hash ->
  forall os : list (op K V), (forall k, ~ In (Del k) os) ->
  exists t, run hash eq os = Some t /\ forall k, htget hash eq t k = Some (spec eq os k).
Proof.
  intros K V hash eq OK os H.
  destruct (safe_main hash eq OK os (nodel_safe eq os H)) as (t & E & G & _). exact (ex_intro _ t (conj E G)).
Qed.
Print Assumptions C28_insert_only_is_a_map.

(* every history: a lookup only returns values put for an equal key *)
Theorem C28_lookup_returns_only_put_values :
  forall (K V : Type) (hash : K -> N) (eq : K -> K -> bool), ok_hash eq hash ->
  forall (os : list (op K V)) t k v, run hash eq os = Some t -> htget hash eq t k = Some (Some v) ->
  exists k', In (Put k' v) os /\ eq k' k = true.
Proof.
  intros K V hash eq OK os t k v E G. destruct (run_wf hash eq OK os) as (t2 & E2 & W).
  rewrite E in E2. injection E2 as <-.
  exact (run_sound hash eq OK os t E k v (htget_sound hash eq OK t k v W G)).
Qed.
Print Assumptions C28_lookup_returns_only_put_values.

(* every history: all operations terminate, and htkeys stays inside the slice it allocates *)
Theorem C28_operations_terminate :
  forall (K V : Type) (hash : K -> N) (eq : K -> K -> bool), ok_hash eq hash ->
  forall os : list (op K V), exists t, run hash eq os = Some t /\
  htkeys t <> None /\ iterate (S (length (slots t))) t 0 <> None /\
  forall k, htget hash eq t k <> None /\ hthas hash eq t k <> None /\ htdel hash eq t k <> None /\
    (forall v, htput hash eq 1 t k v <> None) /\ In None (slots t).
Proof. intros K V hash eq OK os. exact (total_main hash eq OK os). Qed.
Print Assumptions C28_operations_terminate.

Example C28_example :
  let os := [Put 1 10; Put 2 20; Put 2 22; Del 1; Del 2; Put 2 23; Put 3 30] in
  safe N.eqb os /\
  option_map (fun t => (htget collide N.eqb t 1, htget collide N.eqb t 2, htkeys t, htcount t)) (run collide N.eqb os)
  = Some (Some None, Some (Some 23), Some [2; 3], 2).
Proof. split; [vm_compute; intuition discriminate|vm_compute; reflexivity]. Qed.
