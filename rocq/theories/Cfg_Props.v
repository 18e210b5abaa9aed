From Verif Require Import Base Cfg_Model Cfg_Spec Cfg_Reach Cfg_Check Cfg_Build Cfg_Ret Cfg_Flat.

(* Small vocabulary for the examples: variable v (node i), literal, assignment v = e. *)
Definition va (v : nat) : expr := Ex Ovar 900 v false [] [].
Definition lit : expr := Ex (Oother 1) 901 0 false [] [].
Definition undef (i v : nat) : expr := Ex Oundef i 0 false [] [va v].
Definition asn (i v : nat) (e : expr) : expr := Ex Oasn i 0 false [] [va v; e].
Definition cjmp (i l1 l2 : nat) (e : expr) : expr := Ex Ocjmp i 0 false [l1; l2] [e].
Definition jmp (i l : nat) : expr := Ex Ojmp i 0 false [l] [].
Definition ret (i : nat) (e : expr) : expr := Ex Oret i 0 false [] [e].
Definition nonoret (_ : nat) := false.

(* C14: a definition that reaches a block boundary is in the set computed for it. *)
Theorem C14_reaching_defs_sound : forall g fuel ins outs,
  distinct_nodes g -> stores_dont_alias g -> reaching fuel g = Some (ins, outs) ->
  forall d v i b, blk g i = Some b ->
  (Reaches g d v (i, 0) -> bshas (nth i ins 0%N) d = true) /\
  (Reaches g d v (i, length (nl b)) -> bshas (nth i outs 0%N) d = true).
Proof.
  intros g fuel ins outs Hnd Hal Hr d v i b Hb.
  pose proof (iterate_stable _ _ _ _ _ _ _ Hr) as Hst. split; intros H.
  - destruct (reaches_sound g Hnd Hal ins outs Hst d v (i, 0) H) as [_ HP]. unfold at_point in HP. cbn [fst snd] in HP. now rewrite Hb in HP.
  - destruct (reaches_sound g Hnd Hal ins outs Hst d v _ H) as [_ HP]. now rewrite (at_point_end g ins outs Hst i b Hb) in HP.
Qed.
Print Assumptions C14_reaching_defs_sound.

(* The same for every execution of the function body from which the graph was built. *)
Theorem C14_reaching_defs_cover_executions : forall fuel fuel' noret p g ins outs,
  ~ In IDecl p -> NoDup (labels p) -> body_distinct p -> body_dont_alias p ->
  mkcfg fuel noret p = Some (Some g) -> reaching fuel' g = Some (ins, outs) ->
  exists loc : nat -> point,
    (forall pc e, Runs noret p pc -> nth_error p pc = Some (IEx e) -> stmt_at g (loc pc) e) /\
    (forall d v pc, FReaches noret p d v pc -> snd (loc pc) = 0 -> bshas (nth (fst (loc pc)) ins 0%N) d = true).
Proof. exact flat_sound. Qed.
Print Assumptions C14_reaching_defs_cover_executions.

(* Without the aliasing hypothesis the claim fails: the store `p# = 1` through a pointer
   carries declaration id 0 and erases the definitions of the variable whose id is 0. *)
Definition store_via (i v : nat) : expr := Ex Oasn i 0 false [] [Ex (Oother 2) 902 0 false [] [va v]; lit].
Definition alias_graph : cfg :=
  [Some (mkBb [asn 1 0 lit; store_via 2 7] [] 0 2); Some (mkBb [ret 3 (va 0)] [] 1 0)]%N.
Theorem C14_pointer_store_refuted : exists g ins outs d v,
  distinct_nodes g /\ reaching 10 g = Some (ins, outs) /\ Reaches g d v (1, 0) /\ bshas (nth 1 ins 0%N) d = false.
Proof.
  exists alias_graph, [0; 4]%N, [4; 4]%N, 1, 0. split; [|split; [reflexivity|split; [|reflexivity]]].
  - intros s s' v H1 H2 _ E. cbn in H1, H2. decompose [or] H1; decompose [or] H2; subst; try tauto; try discriminate; auto.
  - apply (re_edge _ _ _ 0 1 (mkBb [asn 1 0 lit; store_via 2 7] [] 0 2)%N); [|reflexivity|repeat eexists; reflexivity].
    apply (re_stmt _ _ _ 0 1 (store_via 2 7)); [|repeat eexists; reflexivity|].
    + apply (re_def _ _ _ 0 0 (asn 1 0 lit)); [repeat eexists; reflexivity|reflexivity|]. apply as_direct. cbn. tauto.
    + intros H. inversion H; cbn in *; intuition discriminate.
Qed.
Print Assumptions C14_pointer_store_refuted.

(* a loop: x = 1; while c: x = x + 1 *)
Definition loop_body : list item :=
  [IEx (undef 1 5); IEx (asn 2 5 lit); ILbl 10; IEx (cjmp 3 11 12 (va 6)); ILbl 11; IEx (asn 4 5 (va 5)); IEx (jmp 5 10); ILbl 12; IEx (ret 6 (va 5)); ILbl 13].
Example C14_example : match mkcfg 30 nonoret loop_body with
  | Some (Some g) => match reaching 30 g with Some (ins, outs) => nth 2 ins 0%N = 20%N /\ checkreach (fun v => v =? 6) g ins = true | None => False end
  | _ => False end.
Proof. vm_compute. auto. Qed.
Example C14_example_wf : ~ In IDecl loop_body /\ NoDup (labels loop_body) /\ body_distinct loop_body /\ body_dont_alias loop_body.
Proof.
  split; [|split; [|split]].
  - cbn. intuition discriminate.
  - cbn. repeat constructor; cbn; intuition discriminate.
  - intros s v H A. split.
    + cbn in H. decompose [or] H; try discriminate; match goal with E : IEx _ = IEx _ |- _ => injection E as <-; cbn; lia | _ => tauto end.
    + intros s' H' E. cbn in H, H'. decompose [or] H; try discriminate; try tauto; decompose [or] H'; try discriminate; try tauto;
      repeat match goal with E : IEx _ = IEx _ |- _ => injection E as <- end; auto; discriminate.
  - intros s n H E. cbn in H. decompose [or] H; try discriminate; try tauto;
      match goal with Q : IEx _ = IEx _ |- _ => injection Q as <- end; cbn in E; try discriminate; injection E as <-; intros Q; now elim Q.
Qed.
Example C14_example_reach : FReaches nonoret loop_body 4 5 3.
Proof.
  apply (fr_step _ _ _ _ 6); [|intros s E; injection E as <-; intros A; inversion A; cbn in *; intuition discriminate|].
  - apply (fr_def _ _ _ _ 5 (asn 4 5 (va 5))); [|reflexivity|reflexivity|apply as_direct; cbn; tauto|].
    + apply (run_step _ _ 3); [apply (run_step _ _ 2); [apply (run_step _ _ 1); [apply (run_step _ _ 0); [constructor|]|]|]|].
      * eapply st_next; [reflexivity|cbn; intuition discriminate|cbn; intuition discriminate].
      * eapply st_next; [reflexivity|cbn; intuition discriminate|cbn; intuition discriminate].
      * eapply st_lbl. reflexivity.
      * apply (st_jmp _ _ _ (cjmp 3 11 12 (va 6)) 11 4); cbn; auto.
    + eapply st_next; [reflexivity|cbn; intuition discriminate|cbn; intuition discriminate].
  - apply (st_jmp _ _ _ (jmp 5 10) 10 2); cbn; auto.
Qed.

(* C15: nothing else is in the sets, and the computation terminates. *)
Theorem C15_reaching_defs_exact : forall g fuel ins outs,
  distinct_nodes g -> stores_dont_alias g -> reaching fuel g = Some (ins, outs) ->
  forall d v i, (exists s, In s (stmts g) /\ enid s = d /\ Assigns s v) ->
  (bshas (nth i ins 0%N) d = true -> Reaches g d v (i, 0)) /\
  (bshas (nth i outs 0%N) d = true -> exists b, blk g i = Some b /\ Reaches g d v (i, length (nl b))).
Proof.
  intros g fuel ins outs Hnd Hal Hr d v i Hs. apply in_defs in Hs.
  destruct (iterate_exact g Hnd Hal fuel _ _ _ _ (exact_init g) Hr) as [E1 E2]. split; intros H; [apply E1|apply E2]; auto.
Qed.
Print Assumptions C15_reaching_defs_exact.

Theorem C15_reaching_terminates : forall g, exists n, forall fuel, n < fuel -> exists r, reaching fuel g = Some r.
Proof. intros g. exists (2 * length g * idbound g). exact (reaching_terminates g). Qed.
Print Assumptions C15_reaching_terminates.

Example C15_example : match mkcfg 30 nonoret loop_body with
  | Some (Some g) => match reaching 30 g with Some (ins, outs) => bshas (nth 2 ins 0%N) 1 = false /\ bshas (nth 2 ins 0%N) 2 = true /\ bshas (nth 2 ins 0%N) 4 = true | None => False end
  | _ => False end.
Proof. vm_compute. auto. Qed.

(* C16, what holds: in an accepted body a variable that can still be undefined is never
   read in a position the check looks at, except in a block that has assigned it, before the
   read or by the reading statement itself.
   Missing: reads in store destinations, callees, address-of bases and by-address
   arguments, and reads in the same statement or after a redeclaration in the same block (refuted below). *)
Theorem C16_no_undefined_reads_partial : forall isconst fuel fuel' noret p g ins outs,
  ~ In IDecl p -> NoDup (labels p) -> body_distinct p -> body_dont_alias p ->
  mkcfg fuel noret p = Some (Some g) -> reaching fuel' g = Some (ins, outs) -> checkreach isconst g ins = true ->
  forall u v pc s, eop u = Oundef -> In (IEx u) p -> Assigns u v -> FReaches noret p (enid u) v pc ->
    nth_error p pc = Some (IEx s) -> eop s <> Oundef -> ReadsChecked v s -> isconst v = false ->
  exists i k k' s', stmt_at g (i, k) s /\ k' <= k /\ stmt_at g (i, k') s' /\ eop s' <> Oundef /\ Assigns s' v.
Proof. exact flat_no_undef. Qed.
Print Assumptions C16_no_undefined_reads_partial.

(* a rejected body really has a path from a declaration without value to a read *)
Theorem C16_no_false_alarm : forall isconst g fuel ins outs,
  distinct_nodes g -> stores_dont_alias g -> reaching fuel g = Some (ins, outs) -> checkreach isconst g ins = false ->
  exists i k s v u, stmt_at g (i, k) s /\ eop s <> Oundef /\ ReadsChecked v s /\ isconst v = false /\
    In u (stmts g) /\ eop u = Oundef /\ Assigns u v /\ Reaches g (enid u) v (i, k).
Proof. exact reject_real. Qed.
Print Assumptions C16_no_false_alarm.

(* accepted p: some execution arrives at a read of v whose value is the undefined one *)
Definition missed (p : list item) : Prop :=
  exists g ins outs u v pc s, mkcfg 30 nonoret p = Some (Some g) /\ reaching 30 g = Some (ins, outs) /\
    checkreach (fun _ => false) g ins = true /\ eop u = Oundef /\ In (IEx u) p /\ Assigns u v /\
    FReaches nonoret p (enid u) v pc /\ nth_error p pc = Some (IEx s) /\ eop s <> Oundef /\ Reads v s.

Definition plus (a b : expr) : expr := Ex (Oother 3) 903 0 false [] [a; b].
Definition deref (a : expr) : expr := Ex (Oother 2) 902 0 false [] [a].
Lemma first_undef p s i v : p = IEx (undef i v) :: IEx s :: skipn 2 p -> FReaches nonoret p i v 1.
Proof.
  intros E. rewrite E. apply (fr_def _ _ _ _ 0 (undef i v)); [constructor|reflexivity|reflexivity|apply as_direct; cbn; tauto|].
  eapply st_next; [reflexivity|cbn; intuition discriminate|cbn; intuition discriminate].
Qed.

(* var x; x = x + 1 *)
Theorem C16_self_assignment_refuted : missed [IEx (undef 1 5); IEx (asn 2 5 (plus (va 5) lit)); IEx (ret 3 lit); ILbl 9].
Proof.
  do 3 eexists. exists (undef 1 5), 5, 1, (asn 2 5 (plus (va 5) lit)).
  split; [vm_compute; reflexivity|]. split; [vm_compute; reflexivity|]. split; [vm_compute; reflexivity|].
  split; [reflexivity|]. split; [cbn; tauto|]. split; [apply as_direct; cbn; tauto|].
  split; [eapply first_undef; reflexivity|]. split; [reflexivity|]. split; [discriminate|].
  apply rd_store; [cbn; tauto|]. eapply rd_other; [cbn; intuition discriminate|left; reflexivity|constructor].
Qed.
Print Assumptions C16_self_assignment_refuted.

(* var x; x = 1; var x (again, as in a loop body unrolled in one block); use of x *)
Theorem C16_redeclaration_refuted : missed [IEx (undef 1 5); IEx (asn 2 5 lit); IEx (undef 3 5); IEx (ret 4 (va 5)); ILbl 9].
Proof.
  do 3 eexists. exists (undef 3 5), 5, 3, (ret 4 (va 5)).
  split; [vm_compute; reflexivity|]. split; [vm_compute; reflexivity|]. split; [vm_compute; reflexivity|].
  split; [reflexivity|]. split; [cbn; tauto|]. split; [apply as_direct; cbn; tauto|].
  split; [|split; [reflexivity|split; [discriminate|eapply rd_other; [cbn; intuition discriminate|left; reflexivity|constructor]]]].
  apply (fr_def _ _ _ _ 2 (undef 3 5)); [|reflexivity|reflexivity|apply as_direct; cbn; tauto|].
  - apply (run_step _ _ 1); [apply (run_step _ _ 0); [constructor|]|];
      (eapply st_next; [reflexivity|cbn; intuition discriminate|cbn; intuition discriminate]).
  - eapply st_next; [reflexivity|cbn; intuition discriminate|cbn; intuition discriminate].
Qed.
Print Assumptions C16_redeclaration_refuted.

(* var p; p# = 1 *)
Theorem C16_store_through_undefined_pointer_refuted : missed [IEx (undef 1 5); IEx (store_via 2 5); IEx (ret 3 lit); ILbl 9].
Proof.
  do 3 eexists. exists (undef 1 5), 5, 1, (store_via 2 5).
  split; [vm_compute; reflexivity|]. split; [vm_compute; reflexivity|]. split; [vm_compute; reflexivity|].
  split; [reflexivity|]. split; [cbn; tauto|]. split; [apply as_direct; cbn; tauto|].
  split; [eapply first_undef; reflexivity|]. split; [reflexivity|]. split; [discriminate|].
  eapply rd_dest; [cbn; tauto|discriminate|left; reflexivity|constructor].
Qed.
Print Assumptions C16_store_through_undefined_pointer_refuted.

(* var f; f() *)
Definition callv (i v : nat) : expr := Ex Ocall i 0 false [] [va v].
Theorem C16_call_of_undefined_function_refuted : missed [IEx (undef 1 5); IEx (callv 2 5); IEx (ret 3 lit); ILbl 9].
Proof.
  do 3 eexists. exists (undef 1 5), 5, 1, (callv 2 5).
  split; [vm_compute; reflexivity|]. split; [vm_compute; reflexivity|]. split; [vm_compute; reflexivity|].
  split; [reflexivity|]. split; [cbn; tauto|]. split; [apply as_direct; cbn; tauto|].
  split; [eapply first_undef; reflexivity|]. split; [reflexivity|]. split; [discriminate|].
  eapply rd_other; [cbn; intuition discriminate|left; reflexivity|constructor].
Qed.
Print Assumptions C16_call_of_undefined_function_refuted.

Example C16_example_accepts : match mkcfg 30 nonoret loop_body with
  | Some (Some g) => match reaching 30 g with Some (ins, outs) => checkreach (fun v => v =? 6) g ins = true | None => False end
  | _ => False end.
Proof. vm_compute. auto. Qed.
(* var x; if c: x = 1;; -> x is reported *)
Definition branch_body : list item :=
  [IEx (undef 1 5); IEx (cjmp 3 11 12 lit); ILbl 11; IEx (asn 4 5 lit); ILbl 12; IEx (ret 6 (va 5)); ILbl 13].
Example C16_example_rejects : match mkcfg 30 nonoret branch_body with
  | Some (Some g) => match reaching 30 g with Some (ins, outs) => checkreach (fun _ => false) g ins = false | None => False end
  | _ => False end.
Proof. vm_compute. auto. Qed.

(* C17, what holds: if the check accepts a body (with more in it than one label), no
   execution runs off its end.  6/simp.c emits no declarations inside bodies and ends every
   body with a label. Missing: the empty body, refuted below. *)
Theorem C17_accepted_bodies_return_partial : forall fuel noret p,
  ~ In IDecl p -> NoDup (labels p) -> p <> [] -> (forall l, p <> [ILbl l]) ->
  checkret fuel noret p = Accept -> ~ Runs noret p (length p).
Proof. exact checkret_sound. Qed.
Print Assumptions C17_accepted_bodies_return_partial.

Theorem C17_check_terminates : forall noret p fuel,
  ~ In IDecl p -> NoDup (labels p) -> 2 * length p + 6 <= fuel -> checkret fuel noret p <> Diverge.
Proof. exact checkret_terminates. Qed.
Print Assumptions C17_check_terminates.

(* a non-void function with an empty body is accepted although it runs off its end *)
Theorem C17_empty_body_refuted : exists p, checkret 30 nonoret p = Accept /\ Runs nonoret p (length p).
Proof.
  exists [ILbl 1]. split; [reflexivity|]. apply (run_step _ _ 0); [constructor|]. now apply (st_lbl _ _ _ 1).
Qed.
Print Assumptions C17_empty_body_refuted.

Example C17_example : checkret 30 nonoret loop_body = Accept /\ checkret 30 nonoret branch_body = Accept /\
  checkret 30 nonoret [IEx (cjmp 3 11 12 lit); ILbl 11; IEx (ret 4 lit); ILbl 12; IEx (asn 5 5 lit); ILbl 13] = Reject.
Proof. vm_compute. auto. Qed.

(* C46: the graph contains every statement that can be executed, and every step of an
   execution stays in a block or follows an edge from the block's last statement. *)
Theorem C46_graph_covers_executions : forall fuel noret p g,
  ~ In IDecl p -> NoDup (labels p) -> mkcfg fuel noret p = Some (Some g) ->
  exists loc : nat -> point,
  (forall pc e, Runs noret p pc -> nth_error p pc = Some (IEx e) -> stmt_at g (loc pc) e) /\
  (forall a b, Runs noret p a -> Step noret p a b ->
     ((exists l, nth_error p a = Some (ILbl l)) /\ loc b = loc a) \/
     ((exists e, nth_error p a = Some (IEx e)) /\ loc b = (fst (loc a), S (snd (loc a)))) \/
     (edge g (fst (loc a)) (fst (loc b)) /\ snd (loc b) = 0 /\
      exists x s, blk g (fst (loc a)) = Some x /\ nth_error (nl x) (snd (loc a)) = Some s /\ length (nl x) = S (snd (loc a)) /\
                  (eop s = Ojmp \/ eop s = Ocjmp))).
Proof. exact mkcfg_covers. Qed.
Print Assumptions C46_graph_covers_executions.

Example C46_example : match mkcfg 30 nonoret loop_body with
  | Some (Some g) => length (stmts g) = 7 /\ option_map nl (nth 2 g None) = Some [cjmp 3 11 12 (va 6)]
  | _ => False end.
Proof. vm_compute. auto. Qed.
