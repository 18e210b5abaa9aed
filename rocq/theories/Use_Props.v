(* C27: what is exported through a use file is what an importer reads. *)
From Verif Require Import Base Word CPack_Model CPack_Proofs Use_Model Use_Spec Use_Proofs.
Open Scope Z_scope.

(* an integer literal that 32 bits hold: below 2^31, or the 64-bit image of a negative number down to -2^31 *)
Definition fits32 (v : Z) : bool := (v <? 2 ^ 31) || (2 ^ 64 - 2 ^ 31 <=? v).

Lemma fits32_through32 v : 0 <= v < 2 ^ 64 -> (fits32 v = true <-> through32 v = v).
Proof.
  intros H. unfold fits32, through32. rewrite orb_true_iff, Z.ltb_lt, Z.leb_le.
  pose proof (Z.mod_pos_bound v (2 ^ 32) ltac:(lia)) as M.
  pose proof (Z.div_mod v (2 ^ 32) ltac:(lia)) as D.
  assert (Q : 0 <= v / 2 ^ 32 < 2 ^ 32) by (split; [apply Z.div_pos; lia|apply Z.div_lt_upper_bound; lia]).
  set (m := v mod 2 ^ 32) in *. set (q := v / 2 ^ 32) in *. clearbody m q.
  destruct (Z.leb_spec (2 ^ 31) m); split; intros K; lia.
Qed.

(* The whole file: if every field fits, every scope declares only builtin types and every integer literal fits 32
   bits, the importer reads the package name and exactly the exported entries, in order and to the end of the file;
   only the visibility is reduced to "hidden or not", and initialisers that are not exported are absent.
   Missing from the full property: larger literals and scopes that declare types, both refuted below. *)
Theorem C27_file_partial pkg is :
  okstr pkg = true -> forallb (rep_item fits32) is = true ->
  rduse (wruse pkg is) = RVal (Some (pkg, map (im_item (fun v => v) hidden_only) is)) [].
Proof.
  intros P R. apply (reads_use fits32 (fun v => v)); auto. intros v Hv F. apply fits32_through32; auto.
Qed.
Print Assumptions C27_file_partial.

(* With no condition on the literals the outcome is still exact: an integer literal keeps its low 32 bits and is sign
   extended, everything else is as above. *)
Theorem C27_file_exact pkg is :
  okstr pkg = true -> forallb (rep_item (fun _ => true)) is = true ->
  rduse (wruse pkg is) = RVal (Some (pkg, map (im_item through32 hidden_only) is)) [].
Proof. intros P R. apply (reads_use (fun _ => true) through32); auto. Qed.
Print Assumptions C27_file_exact.

(* Single nodes and types in the middle of a file: the reader stops exactly where the writer did. *)
Theorem C27_node_partial n s : rep_node fits32 n = true ->
  unpickle (pickle n ++ s) = RVal (im_node (fun v => v) hidden_only n) s.
Proof. intros R. apply (reads_node fits32 (fun v => v)); auto. intros v Hv F. apply fits32_through32; auto. Qed.
Theorem C27_type_partial t s : rep_ty fits32 t = true ->
  tyunpickle (typickle t ++ s) = RVal (im_ty (fun v => v) hidden_only t) s.
Proof. intros R. apply (reads_ty fits32 (fun v => v)); auto. intros v Hv F. apply fits32_through32; auto. Qed.
Print Assumptions C27_node_partial.
Print Assumptions C27_type_partial.

(* Two files that read the same were written from entries an importer cannot tell apart. *)
Corollary C27_injective_partial pkg pkg' is is' :
  okstr pkg = true -> okstr pkg' = true -> forallb (rep_item fits32) is = true -> forallb (rep_item fits32) is' = true ->
  wruse pkg is = wruse pkg' is' ->
  pkg = pkg' /\ map (im_item (fun v => v) hidden_only) is = map (im_item (fun v => v) hidden_only) is'.
Proof.
  intros P P' R R' E. pose proof (C27_file_partial pkg is P R) as A. rewrite E, C27_file_partial in A by auto.
  injection A as -> ->. auto.
Qed.
Print Assumptions C27_injective_partial.

(* A file of another version, or that is no use file, is refused. *)
Theorem C27_version v rest : i32 v = true -> v <> 23 -> exists s, rduse (85 :: wrint v ++ rest) = RVal None s.
Proof.
  intros R N. unfold rduse. change (negb (85 =? 85)) with false. cbv iota. unfold bind. rewrite (reads_int v R rest).
  destruct (Z.eqb_spec v Abiversion) as [E|_]; [contradiction|]. eexists. reflexivity.
Qed.
Theorem C27_magic c rest : c <> 85 -> exists s, rduse (c :: rest) = RVal None s.
Proof. intros N. unfold rduse. destruct (Z.eqb_spec c 85); [contradiction|]. eexists. reflexivity. Qed.
Print Assumptions C27_version.
Print Assumptions C27_magic.

(* [pkg = const big : uint64 = v ;;] -- 14 is uint64, 53 the operator of literals, 1 the exported visibility *)
Definition name (b : list Z) : node := Nname 1 None (Some b).
Definition intlit (v : Z) : node := Nexpr 1 53 0 (Rbuiltin 14) Rnull 1 Nnull [Nlit 1 (Rbuiltin 14) 0 (Lint v)].
Definition constdecl (v : Z) : sym := Sym 1 (name [98; 105; 103]) (Rbuiltin 14) 1 1 0 0 0 0 1 0 0 (intlit v).

(* The property fails for 64-bit literals: an exported constant 2^32 is imported as 0, and the importer, which
   inlines the initialiser of an imported constant (parse/fold.c:163-166), computes with 0. *)
Theorem C27_literal_refuted :
  exists v, 0 <= v < 2 ^ 64 /\ rep_item (fun _ => true) (Idecl (constdecl v)) = true /\
    rduse (wruse None [Idecl (constdecl v)]) =
      RVal (Some (None, [im_item (fun _ => 0) hidden_only (Idecl (constdecl v))])) [] /\
    im_item (fun _ => 0) hidden_only (Idecl (constdecl v)) <> im_item (fun v => v) hidden_only (Idecl (constdecl v)).
Proof.
  exists (2 ^ 32). split; [lia|]. split; [vm_compute; reflexivity|]. split; [vm_compute; reflexivity|]. vm_compute. discriminate.
Qed.
Print Assumptions C27_literal_refuted.

(* It fails for every literal that does not fit, not only for that one. *)
Theorem C27_literal_exact v : 0 <= v < 2 ^ 64 ->
  (rduse (wruse None [Idecl (constdecl v)]) =
     RVal (Some (None, [im_item (fun v => v) hidden_only (Idecl (constdecl v))])) [] <-> fits32 v = true).
Proof.
  intros H. rewrite C27_file_exact; [|reflexivity|].
  - rewrite fits32_through32 by auto. cbn [map im_item constdecl im_sym im_node im_lit intlit name]. change (1 =? 0) with false.
    cbv iota. split; intros E; [injection E as E; exact E|rewrite E; reflexivity].
  - cbn -[Z.pow Z.ltb Z.leb]. rewrite (proj2 (Z.leb_le 0 v)), (proj2 (Z.ltb_lt v (2 ^ 64))) by lia. reflexivity.
Qed.
Print Assumptions C27_literal_exact.

(* The body [type local = ...] inside an exported generic function: the scope of the block declares a type that is
   not builtin.  Reading it back is undefined behaviour, whatever else the scope and the file contain. *)
Definition undefs {A} (r : rdr A) (w : stream) : Prop := forall s, r (w ++ s) = RUB.
Lemma undefs_here {A B} (r : rdr A) (k : A -> rdr B) w w' : undefs r w -> undefs (bind r k) (w ++ w').
Proof. intros H s. unfold bind. rewrite <- app_assoc, H. reflexivity. Qed.
Lemma undefs_here0 {A B} (r : rdr A) (k : A -> rdr B) w : undefs r w -> undefs (bind r k) w.
Proof. intros H s. unfold bind. rewrite H. reflexivity. Qed.
Lemma undefs_later {A B} (r : rdr A) (k : A -> rdr B) w w' a :
  reads r w a -> undefs (k a) w' -> undefs (bind r k) (w ++ w').
Proof. intros H K s. unfold bind. rewrite <- app_assoc, H. apply K. Qed.
Lemma undefs_times {A B} (r : rdr B) (w : A -> stream) (g : A -> B) l x l' n :
  (forall y, In y l -> reads r (w y) (g y)) -> undefs r (w x) -> (length l < n)%nat ->
  undefs (gtimes n r) (flat_map w (l ++ x :: l')).
Proof.
  revert n. induction l as [|y l IH]; intros n R U Hn; (destruct n as [|n]; [cbn in Hn; lia|]); cbn [gtimes app flat_map].
  - apply undefs_here; auto.
  - eapply undefs_later; [apply R; left; auto|]. apply undefs_here0. apply IH; auto; [|cbn in Hn; lia].
    intros z Hz. apply R. right; auto.
Qed.

Theorem C27_local_type_refuted line scopename ds ts n r ts' stmts s :
  i32 line = true -> okstr scopename = true ->
  okcount ds = true -> forallb (rep_sym (fun _ => true)) ds = true ->
  okcount (ts ++ (n, r) :: ts') = true ->
  forallb (fun e => rep_node (fun _ => true) (fst e) && okref (snd e) && isbuiltin (snd e)) ts = true ->
  rep_node (fun _ => true) n = true -> okref r = true -> isbuiltin r = false ->
  unpickle (pickle (Nblock line (Stab scopename ds (ts ++ (n, r) :: ts')) stmts) ++ s) = RUB.
Proof.
  intros HL HN HD RD HC RT Rn Rr NB. unfold unpickle.
  set (f := length _).
  assert (F : (length (pickle (Nblock line (Stab scopename ds (ts ++ (n, r) :: ts')) stmts)) <= f)%nat)
    by (subst f; rewrite app_length; lia).
  clearbody f. cbn [pickle wrlit wrsym wrstab] in F. revert s.
  cbn [pickle wrlit wrsym wrstab].
  match goal with |- forall s, ?R (?W ++ s) = RUB => change (undefs R W) end.
  rewrite !app_length in F. cbn [wrbyte length] in F.
  assert (E4 : length (wrint line) = 4%nat) by reflexivity.
  destruct f as [|f]; [lia|]. cbn [unpickle_f rdsym_f rdstab_f].
  eapply undefs_later; [apply reads_byte; reflexivity|]. cbv beta. cbn [Z.eqb Pos.eqb].
  eapply undefs_later; [apply reads_int; auto|]. cbv beta.
  apply undefs_here.
  set (w2 := wlist (fun e : node * ref => pickle (fst e) ++ wrtype (snd e)) (ts ++ (n, r) :: ts')) in *.
  destruct (roundtrip (fun _ => true) through32 (fun v _ _ => eq_refl) f) as (Hn & Hy & _).
  eapply undefs_later; [apply reads_str; auto|]. cbv beta.
  eapply undefs_later.
  { apply (reads_list _ wrsym (im_sym through32 hidden_only)); auto. intros y Hin.
    rewrite forallb_forall in RD. apply Hy; auto. pose proof (len_wlist wrsym ds y Hin). lia. }
  cbv beta. apply undefs_here0. unfold glist. subst w2. unfold wlist at 1.
  assert (LW : forall e, In e (ts ++ (n, r) :: ts') -> (length (pickle (fst e)) < f)%nat).
  { intros e He. pose proof (len_wlist (fun e : node * ref => pickle (fst e) ++ wrtype (snd e)) _ e He) as Q. cbv beta in Q.
    rewrite app_length in Q. lia. }
  unfold okcount in HC. apply Z.ltb_lt in HC.
  eapply undefs_later; [apply reads_int; unfold i32; apply andb_true_iff; rewrite Z.leb_le, Z.ltb_lt; lia|]. cbv beta.
  destruct (Z.ltb_spec (Z.of_nat (length (ts ++ (n, r) :: ts'))) 0); [lia|]. rewrite Nat2Z.id.
  eapply (undefs_times _ _ (fun e => (im_node through32 hidden_only (fst e), snd e))).
  - intros [m q] Hin. cbn [fst snd]. rewrite forallb_forall in RT. pose proof (RT _ Hin) as Q. cbn [fst snd] in Q.
    apply andb_true_iff in Q as [Q Q3]. apply andb_true_iff in Q as [Q1 Q2].
    eapply reads_bind; [apply Hn; auto; apply (LW (m, q)); apply in_or_app; auto|]. cbv beta.
    apply (reads_last rdscopety (fun q => (im_node through32 hidden_only m, q))). apply reads_scopety; auto.
  - cbn [fst snd]. eapply undefs_later; [apply Hn; auto; apply (LW (n, r)); apply in_or_app; right; left; auto|]. cbv beta.
    apply undefs_here0. unfold rdscopety. rewrite <- (app_nil_r (wrtype r)).
    eapply undefs_later; [apply reads_ref; auto|]. cbv beta. destruct r; try discriminate NB; intros s; reflexivity.
  - rewrite app_length. cbn [length]. lia.
Qed.
Print Assumptions C27_local_type_refuted.

(* A concrete file that meets the hypotheses: a library dependency, the source file name, a struct type with one field,
   a union, a generic function whose body has a scope with one variable and a match statement, a trait, an impl, a
   constant, and an initialiser. *)
Definition ex_struct : ty :=
  {| t_vis := 1; t_spec := []; t_seqaux := Rnull; t_nsub := 0;
     t_body := Tstruct [Ndecl 3 (name [120]) (Rbuiltin 6) 0 0 0 0 0 Nnull] |}.
Definition ex_union : ty :=
  {| t_vis := 2; t_spec := [{| ts_traits := [name [116]]; ts_param := Rtid 41; ts_aux := Rnull |}]; t_seqaux := Rnull; t_nsub := 0;
     t_body := Tunion [{| u_line := 5; u_id := 0; u_synth := 0; u_name := name [78]; u_ety := Rnull |};
                       {| u_line := 6; u_id := 1; u_synth := 0; u_name := name [83]; u_ety := Rtid 40 |}] |}.
Definition ex_param : ty :=
  {| t_vis := 2; t_spec := []; t_seqaux := Rnull; t_nsub := 0; t_body := Tparam [0; 9] (Some [97]) |}.
Definition ex_fn : node :=
  Nexpr 7 53 0 (Rtid 43) Rnull 1 Nnull
    [Nlit 7 (Rtid 43) 0 (Lfunc
      (Nfunc 7 (Rtid 43) (Stab None [Sym 7 (name [120]) (Rtid 42) 0 1 0 0 0 0 0 0 0 (name [121])] [])
             [Ndecl 7 (name [120]) (Rtid 42) 1 0 0 0 0 Nnull]
             (Nblock 8 (Stab None [] [])
               [Nmatchs 9 (name [120]) [Nmatch 10 (intlit (2 ^ 64 - 1)) (Nblock 10 (Stab None [] []) [])];
                Nif 11 (name [120]) (Nblock 11 (Stab None [] []) []) Nnull])))].
Definition ex_items : list item :=
  [Ilib (Some [115; 116; 100]); Ifile (Some [97; 46; 109]);
   Itype 40 ex_struct; Itype 41 ex_union; Itype 42 ex_param;
   Itype 43 {| t_vis := 2; t_spec := []; t_seqaux := Rnull; t_nsub := 2; t_body := Tsubs 19 [Rbuiltin 1; Rtid 42] |};
   Itrait {| r_uid := 9; r_vis := 1; r_name := name [116]; r_param := ex_param; r_aux := []; r_proto := [] |};
   Iimpl (Nimpl 12 (name [116]) 9 (Rbuiltin 6) [] []);
   Idecl (Sym 7 (name [102]) (Rtid 43) 1 1 1 0 0 0 1 0 0 ex_fn);
   Idecl (constdecl 1000); Iinit (name [105])].
Example ex_rep : okstr (Some [112]) = true /\ forallb (rep_item fits32) ex_items = true.
Proof. split; vm_compute; reflexivity. Qed.
Example ex_read : rduse (wruse (Some [112]) ex_items) =
  RVal (Some (Some [112], map (im_item (fun v => v) hidden_only) ex_items)) [].
Proof. apply C27_file_partial; apply ex_rep. Qed.
Example ex_local_type : unpickle (pickle (Nblock 3 (Stab None [] [(name [108], Rtid 44)]) [intlit 1])) = RUB.
Proof.
  rewrite <- (app_nil_r (pickle _)). apply (C27_local_type_refuted 3 None [] [] (name [108]) (Rtid 44) []); reflexivity.
Qed.
