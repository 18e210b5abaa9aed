(* C66: a use file contains every type, trait and declaration that its entries mention. *)
From Verif Require Import Base Word CPack_Model CPack_Proofs Use_Model Use_Spec Use_Proofs Use_Props Export_Model Export_Spec Export_Proofs.
Open Scope Z_scope.

Lemma run_roots p f s : run p f (roots p) [] = Some s ->
  (forall m, In m s -> forall w, In w (succ p m) -> settled p s w) /\ (forall w, In w (roots p) -> settled p s w).
Proof. intros E. apply (run_spec p f (roots p) [] s (roots p) E); [intros m []|auto]. Qed.

(* Tagging ends, however the types, traits and declarations refer to one another. *)
Theorem C66_ends p : exists f s, run p f (roots p) [] = Some s.
Proof. apply run_ends. Qed.
Print Assumptions C66_ends.

(* Every type id in the file is defined by an entry of the file, and so is every trait id.
   Missing from the full property: local declarations with initialisers inside the initialiser of another one, and
   array sizes of named types; both are refuted below. *)
Theorem C66_closed_partial p f s :
  consistent p = true -> covered_prog p = true -> run p f (roots p) [] = Some s -> resolves (entries p s) = true.
Proof. intros Con Cov E. destruct (run_roots p f s E). apply closed; auto. Qed.
Print Assumptions C66_closed_partial.

(* entries that mention no type and no trait: the libraries, source files, and initialisers by name *)
Definition inert (i : item) : bool :=
  match i with Ilib _ | Iext _ | Ifile _ => true | Iinit n | Ifini n => isname n | _ => false end.
Lemma resolves_around l is l' : forallb inert l = true -> forallb inert l' = true -> resolves is = true ->
  resolves (l ++ is ++ l') = true.
Proof.
  intros H H'. assert (R : forall m, forallb inert m = true -> flat_map refs_item m = [] /\ flat_map traits_item m = []).
  { induction m as [|i m IH]; cbn; auto. intros X. apply andb_prop in X as [X Y]. destruct (IH Y) as [-> ->].
    destruct i; try discriminate X; auto; cbn [inert] in X; cbn [refs_item traits_item]; rewrite (name_refs _ X); auto. }
  destruct (R l H) as [R1 T1]. destruct (R l' H') as [R2 T2].
  unfold resolves. rewrite !flat_map_app, R1, R2, T1, T2, !app_nil_l, !app_nil_r.
  intros X. apply andb_prop in X as [X Y]. rewrite forallb_forall in X, Y. apply andb_true_intro. split; apply forallb_forall.
  - intros r Hr. specialize (X r Hr). destruct r; auto. unfold defines_type in *. rewrite !existsb_app, X, orb_true_r. auto.
  - intros u Hu. specialize (Y u Hu). unfold defines_trait in *. rewrite !existsb_app. apply orb_prop in Y as [->| ->]; auto.
    cbn [orb]. rewrite !orb_true_r. auto.
Qed.

(* From tagging to loading: the importer accepts the file and gets exactly the image of the written entries. *)
Theorem C66_load_partial p f s pkg l l' :
  consistent p = true -> covered_prog p = true -> run p f (roots p) [] = Some s ->
  forallb inert l = true -> forallb inert l' = true ->
  okstr pkg = true -> forallb (rep_item fits32) (l ++ entries p s ++ l') = true ->
  loaduse (wruse pkg (l ++ entries p s ++ l')) =
    RVal (Some (pkg, map (im_item (fun v => v) hidden_only) (l ++ entries p s ++ l'))) [].
Proof.
  intros Con Cov E I I' P R. unfold loaduse. rewrite C27_file_partial by auto. rewrite resolves_im.
  rewrite resolves_around; auto. apply (C66_closed_partial p f s); auto.
Qed.
Print Assumptions C66_load_partial.

(* What loading checks is exact: whatever the entries, the importer stops with an error iff some type or trait that
   is mentioned has no entry. *)
Theorem C66_load_exact pkg is : okstr pkg = true -> forallb (rep_item fits32) is = true ->
  loaduse (wruse pkg is) =
    if resolves is then RVal (Some (pkg, map (im_item (fun v => v) hidden_only) is)) [] else RDie.
Proof. intros P R. unfold loaduse. rewrite C27_file_partial by auto. rewrite resolves_im. reflexivity. Qed.
Print Assumptions C66_load_exact.

(* A declaration that is exported, or tagged, has an entry (unless it is a prototype of a trait, which is written with
   the trait, or one of the init and fini functions, which are written by name). *)
Lemma entry_of p s d g : dclof p d = Some g -> d_trait g = false -> sinit (d_sym g) = false -> sfini (d_sym g) = false ->
  newvis s (MD d) (svis (d_sym g)) <> Visintern -> newvis s (MD d) (svis (d_sym g)) <> Visbuiltin ->
  exists v x, v <> Visintern /\ In (Idecl (sset v x (d_sym g))) (entries p s).
Proof.
  intros T D I F W B. eexists (newvis s (MD d) (svis (d_sym g))), (isexportval p (sgeneric (d_sym g)) (d_trait g) (styp (d_sym g))).
  split; auto. unfold entries. rewrite !in_app_iff. right. right. right. unfold wdecls. apply in_flat_map.
  exists (Z.of_nat d, g). split.
  - apply in_number. cbn [fst snd]. split; [lia|]. rewrite Z.sub_0_r, Nat2Z.id. exact T.
  - cbn [fst snd]. rewrite Nat2Z.id, (proj2 (Z.eqb_neq _ _) W), (proj2 (Z.eqb_neq _ _) B), D, I, F. left. auto.
Qed.

(* Generic code is specialised by the importer, so what it uses must be in the file: if a generic declaration is
   exported or tagged, every internal or exported declaration its body mentions has an entry.
   Missing from the full property: declarations used in the initialiser of a local variable (refuted below) and
   functions of traits that are internal. *)
Theorem C66_generic_partial p f s d g d' g' :
  consistent p = true -> run p f (roots p) [] = Some s ->
  dclof p d = Some g -> sgeneric (d_sym g) <> 0 -> d_trait g = false ->
  svis (d_sym g) = Visexport \/ In (MD d) s ->
  direct p (sval (d_sym g)) = true -> In d' (globals (sval (d_sym g))) ->
  dclof p d' = Some g' -> svis (d_sym g') <> Visbuiltin ->
  d_trait g' = false -> sinit (d_sym g') = false -> sfini (d_sym g') = false ->
  exists v x, v <> Visintern /\ In (Idecl (sset v x (d_sym g'))) (entries p s).
Proof.
  intros Con E T G D W Dir Hd T' B D' I F. destruct (run_roots p f s E) as [Sm Sr].
  assert (Work : forall w, In w (nodework p true (sval (d_sym g))) -> settled p s w).
  { intros w Hw. assert (Hw' : forall ing, In w (dclwork p ing (d_trait g) (d_sym g))).
    { intros ing. destruct (d_sym g) as [line nm ty v0 c gg e q rr x i ff init]. cbn [dclwork sval sgeneric] in *. right.
      unfold isexportval. rewrite (proj2 (Z.eqb_neq _ _) G), D. cbn [negb andb orb]. exact Hw. }
    destruct W as [W|W].
    - apply Sr. unfold roots. apply in_or_app. left. apply in_flat_map. exists g. split; [eapply nth_error_In; eauto|].
      rewrite W. apply Hw'.
    - apply (Sm _ W). cbn [succ]. rewrite T. apply Hw'. }
  assert (V : newvis s (MD d') (svis (d_sym g')) <> Visintern).
  { unfold newvis. destruct (Z.eqb_spec (svis (d_sym g')) Visintern) as [Ei|Ei]; cbn [andb]; auto.
    destruct (existsb (mark_eqb (MD d')) s) eqn:X; [discriminate|].
    destruct (globals_worked p _ (sval (d_sym g)) (Nat.lt_succ_diag_r _) Dir d' Hd) as [Q|Q].
    - unfold visible in Q. rewrite T', Ei in Q. discriminate Q.
    - apply Work in Q. unfold settled, enter in Q. rewrite T', Ei, X in Q. discriminate Q. }
  apply entry_of with d'; auto. unfold newvis in *.
  destruct ((svis (d_sym g') =? Visintern) && existsb (mark_eqb (MD d')) s); [discriminate|auto].
Qed.
Print Assumptions C66_generic_partial.

(* --- a package with an exported type, trait and generic function --- *)
Definition mkty (v n : Z) (b : tbody) : ty := {| t_vis := v; t_spec := []; t_seqaux := Rnull; t_nsub := n; t_body := b |}.
Definition scope0 : stab := Stab None [] [].
Definition vref (d : nat) (t : ref) : node := Nexpr 8 51 d t Rnull 0 Nnull [name [118]].
Definition local (nm : list Z) (t : ref) (init : node) : node := Ndecl 8 (name nm) t 0 0 0 0 0 init.
Definition call (d : nat) (ft : ref) (t : ref) : node := Nexpr 8 47 0 t Rnull 0 Nnull [vref d ft; vref 99 t].
(* { x : @a; stmts } of the function type [ft] *)
Definition fn (ft : ref) (stmts : list node) : node :=
  Nexpr 7 53 0 ft Rnull 1 Nnull
    [Nlit 7 ft 0 (Lfunc (Nfunc 7 ft (Stab None [Sym 7 (name [120]) (Rtid 4) 0 1 0 0 0 0 0 0 0 Nnull] [])
                               [local [120] (Rtid 4) Nnull] (Nblock 8 scope0 stmts)))].
Definition builtin_trait : gtrait := {| x_vis := 0; x_name := name [98]; x_param := 4; x_aux := []; x_proto := [] |}.
Definition gfun (vis : Z) (nm : list Z) (stmts : list node) : gdecl :=
  {| d_sym := Sym 7 (name nm) (Rtid 5) vis 1 1 0 0 0 0 0 0 (fn (Rtid 5) stmts); d_trait := false |}.
Definition ex_types : list ty :=
  [ mkty 3 0 (Tsubs 0 []);                                      (* 0: the builtin type "bad" *)
    mkty 1 1 (Tname (name [114]) [] (Rtid 2));                  (* 1: type r = struct x : byte[:] ;; exported *)
    mkty 0 0 (Tstruct [local [120] (Rtid 3) Nnull]);            (* 2 *)
    mkty 0 1 (Tslice (Rbuiltin 6));                             (* 3 *)
    mkty 0 0 (Tparam [8] (Some [97]));                          (* 4: @a::t *)
    mkty 0 2 (Tsubs 19 [Rbuiltin 1; Rtid 4]);                   (* 5: (@a::t -> void) *)
    mkty 0 1 (Tname (name [112]) [] (Rbuiltin 6));              (* 6: type p = int32, internal *)
    mkty 0 1 (Tslice (Rtid 6))                                  (* 7: p[:] *)
  ].
Definition ex_traits : list gtrait :=
  repeat builtin_trait 8 ++ [{| x_vis := 0; x_name := name [116]; x_param := 4; x_aux := []; x_proto := [] |}].
Definition prog_of (ts : list ty) (ds : list gdecl) : prog :=
  {| p_types := ts; p_traits := ex_traits; p_decls := ds; p_named := [1; 6];
     p_impls := [(1, Nimpl 12 (name [116]) 8 (Rtid 1) [] [])] |}.
(* f calls the internal helper, which uses p; nothing uses the third declaration *)
Definition ex_prog : prog :=
  prog_of ex_types
    [gfun 1 [102] [call 1 (Rtid 5) (Rtid 4)]; gfun 0 [104] [vref 99 (Rtid 7)];
     gfun 0 [117] [call 1 (Rtid 5) (Rtid 4)]].
Definition marks (p : prog) : list mark := match run p 1000 (roots p) [] with Some s => s | None => [] end.

Example ex_prog_ok : consistent ex_prog = true /\ covered_prog ex_prog = true /\
  run ex_prog 1000 (roots ex_prog) [] = Some (marks ex_prog) /\
  forallb (rep_item fits32) ([Ilib (Some [115])] ++ entries ex_prog (marks ex_prog) ++ [Iinit (name [105])]) = true /\
  direct ex_prog (sval (d_sym (gfun 1 [102] [call 1 (Rtid 5) (Rtid 4)]))) = true.
Proof. repeat split; vm_compute; reflexivity. Qed.
(* the seven types, the trait, the impl, f and the helper are written; the unused function is not *)
Example ex_prog_entries : length (entries ex_prog (marks ex_prog)) = 11%nat /\
  ~ In (MD 2) (marks ex_prog) /\ In (MD 1) (marks ex_prog).
Proof.
  split; [vm_compute; reflexivity|]. split.
  - intros H. apply marked_in in H. vm_compute in H. discriminate H.
  - apply marked_in. vm_compute. reflexivity.
Qed.
Example ex_prog_loads : exists r,
  loaduse (wruse (Some [112]) ([Ilib (Some [115])] ++ entries ex_prog (marks ex_prog) ++ [Iinit (name [105])])) = RVal (Some r) [].
Proof.
  destruct ex_prog_ok as (A & B & C & D & _).
  rewrite (C66_load_partial ex_prog 1000 (marks ex_prog)) by (auto; reflexivity). eexists. reflexivity.
Qed.
Example ex_prog_helper : exists v x,
  v <> Visintern /\ In (Idecl (sset v x (d_sym (gfun 0 [104] [vref 99 (Rtid 7)])))) (entries ex_prog (marks ex_prog)).
Proof.
  destruct ex_prog_ok as (A & B & C & _ & D).
  eapply (C66_generic_partial ex_prog 1000 (marks ex_prog) 0 _ 1 _ A C); try reflexivity; try (vm_compute; discriminate).
  - left. reflexivity.
  - vm_compute. auto.
Qed.

(* --- where the property fails --- *)

(* [const f = {x : @a; var h = helper(x)}]: the local h is not generic itself, so the declarations its initialiser
   mentions are not tagged.  The package loads, but the helper that specialised copies of f call has no entry. *)
Definition init_prog : prog :=
  prog_of ex_types [gfun 1 [102] [local [104] (Rtid 4) (call 1 (Rtid 5) (Rtid 4))]; gfun 0 [104] []].
Theorem C66_local_init_refuted :
  exists p s, consistent p = true /\ covered_prog p = true /\ run p 1000 (roots p) [] = Some s /\
    (exists g, dclof p 0 = Some g /\ svis (d_sym g) = Visexport /\ sgeneric (d_sym g) <> 0 /\
               In 1%nat (globals (sval (d_sym g)))) /\
    (exists g', dclof p 1 = Some g' /\ d_trait g' = false /\ svis (d_sym g') = Visintern /\
       forall y, In (Idecl y) (entries p s) -> sname y <> sname (d_sym g')).
Proof.
  exists init_prog, (marks init_prog). split; [vm_compute; reflexivity|]. split; [vm_compute; reflexivity|].
  split; [vm_compute; reflexivity|]. split.
  - eexists. split; [reflexivity|]. split; [reflexivity|]. split; [vm_compute; discriminate|]. vm_compute. auto.
  - eexists. split; [reflexivity|]. split; [reflexivity|]. split; [reflexivity|]. intros y Hy. vm_compute in Hy.
    repeat (destruct Hy as [Hy|Hy]; [try discriminate Hy|]); [|contradiction].
    injection Hy as <-. vm_compute. discriminate.
Qed.
Print Assumptions C66_local_init_refuted.

(* [var k = {; var y : r = g(z)}] inside an exported generic function: the initialiser inside the initialiser is
   written, but the types in it are not tagged.  An importer stops with an error. *)
Definition nested_prog : prog :=
  prog_of ex_types [gfun 1 [102] [local [107] (Rtid 5) (fn (Rtid 5) [local [121] (Rtid 1) (call 99 (Rtid 7) (Rtid 1))])]].
Theorem C66_nested_init_refuted :
  exists p s, consistent p = true /\ run p 1000 (roots p) [] = Some s /\
    forallb (rep_item fits32) (entries p s) = true /\ loaduse (wruse (Some [112]) (entries p s)) = RDie.
Proof.
  exists nested_prog, (marks nested_prog). split; [vm_compute; reflexivity|]. split; [vm_compute; reflexivity|].
  split; [vm_compute; reflexivity|]. rewrite C66_load_exact by (vm_compute; reflexivity). vm_compute. reflexivity.
Qed.
Print Assumptions C66_nested_init_refuted.

(* [type r = byte[n]] where the constant n has the internal named type p: the size is written with its type, which is
   not tagged.  An importer stops with an error. *)
Definition size_prog : prog :=
  prog_of ([mkty 3 0 (Tsubs 0 []); mkty 1 1 (Tname (name [114]) [] (Rtid 2));
            mkty 0 1 (Tarray (Rbuiltin 6) (Nexpr 1 53 0 (Rtid 6) Rnull 1 Nnull [Nlit 1 (Rtid 6) 0 (Lint 4)]))] ++ skipn 3 ex_types) [].
Theorem C66_arraysize_refuted :
  exists p s, consistent p = true /\ run p 1000 (roots p) [] = Some s /\
    forallb (rep_item fits32) (entries p s) = true /\ loaduse (wruse (Some [112]) (entries p s)) = RDie.
Proof.
  exists size_prog, (marks size_prog). split; [vm_compute; reflexivity|]. split; [vm_compute; reflexivity|].
  split; [vm_compute; reflexivity|]. rewrite C66_load_exact by (vm_compute; reflexivity). vm_compute. reflexivity.
Qed.
Print Assumptions C66_arraysize_refuted.
