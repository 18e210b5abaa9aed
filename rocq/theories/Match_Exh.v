(* Exhaustiveness: from rows to match statements. *)
From Coq Require Import Lia ZifyBool ZifyNat.
From Verif Require Import Base Match_Spec Match_Model Match_Proofs Match_Rows Match_Top Match_Full.
Open Scope Z_scope.

Lemma fair_un N us : fair N (TUn us) -> forall tag u, nth_error us tag = Some (Some u) -> fair N u.
Proof. cbn. induction us as [|x us IH]; intros H [|tag] u E; cbn in E; try discriminate; [injection E as ->; tauto|]. apply (IH ltac:(destruct x; tauto) tag u E). Qed.
Lemma psl_fair N p : forall t l pi s, plain p = true -> wtp p t -> fair N t -> In s (psl p t l pi) -> iscons s = true -> snd (fst (styp s)) <= snd (styp s) \/ N < snd (styp s).
Proof.
  induction p as [|x|k|bs|p IH|ps IH|tag|tag p IH|p IH|p q IH1 IH2] using pat_ind'; intros t l pi s Hp Hw HF H E; try discriminate Hp.
  - destruct H as [<-|[]]. discriminate.
  - destruct H as [<-|[]]. discriminate.
  - destruct t; cbn in Hw; try tauto. destruct H as [<-|[]]. exact HF.
  - destruct t; cbn in Hw; try tauto. cbn in H. destruct H as [<-|H]; [right; exact HF|].
    apply strslots_in in H as (i & b & _ & Hn & ->). left. cbn. lia.
  - destruct t; cbn in Hw; try tauto. cbn in H. eapply IH; eauto.
  - destruct t as [| | |ts|]; try (cbn in Hw; tauto). rewrite wtp_tup in Hw. cbn [plain] in Hp. rewrite psl_tup in H. cbn in HF.
    revert ts Hw HF H. generalize O. induction ps as [|p ps IHl]; intros i [|t ts] Hw HF H; cbn in Hw; try tauto; [destruct H|].
    inversion IH as [|? ? IHp IHps]; subst. cbn in Hp. apply andb_prop in Hp as [Hp Hps]. cbn in H. apply in_app_or in H as [H|H].
    + eapply IHp; try exact H; tauto.
    + eapply (IHl IHps Hps (S i) ts (proj2 Hw) (proj2 HF) H).
  - destruct t as [| | | |us]; cbn in Hw; try tauto. cbn in H. destruct H as [<-|[]]. left. cbn. lia.
  - destruct t as [| | | |us]; cbn in Hw; try tauto. cbn in H. destruct (nth_error us tag) as [[u|]|] eqn:E1; try tauto. destruct H as [<-|H]; [left; cbn; lia|].
    eapply IH; [exact Hp|exact Hw|eapply fair_un; eauto|exact H|exact E].
Qed.
Fixpoint lpath (l : load) : path :=
  match l with LVar => [O] | LTag l => lpath l ++ [O] | LData l => lpath l ++ [1%nat] | LElt l i => lpath l ++ [i] | LDeref l => lpath l ++ [O] | LLen l => lpath l ++ [O] | LByte l i => lpath l ++ [S i] end.
Lemma psl_lpath p : forall t l s, plain p = true -> wtp p t -> In s (psl p t l (lpath l)) -> spath s = lpath (sload s).
Proof.
  induction p as [|x|k|bs|p IH|ps IH|tag|tag p IH|p IH|p q IH1 IH2] using pat_ind'; intros t l s Hp Hw H; try discriminate Hp.
  - destruct H as [<-|[]]. reflexivity.
  - destruct H as [<-|[]]. reflexivity.
  - destruct t; cbn in Hw; try tauto. destruct H as [<-|[]]. reflexivity.
  - cbn in H. destruct H as [<-|H]; [reflexivity|]. apply strslots_in in H as (i & b & _ & Hn & ->). reflexivity.
  - destruct t; cbn in Hw; try tauto. cbn in H. apply (IH t (LDeref l)); auto.
  - destruct t as [| | |ts|]; try (cbn in Hw; tauto). rewrite wtp_tup in Hw. cbn [plain] in Hp. rewrite psl_tup in H.
    revert ts Hw H. generalize O. induction ps as [|p ps IHl]; intros i [|t ts] Hw H; cbn in Hw; try tauto; [destruct H|].
    inversion IH as [|? ? IHp IHps]; subst. cbn in Hp. apply andb_prop in Hp as [Hp Hps]. cbn in H. apply in_app_or in H as [H|H].
    + apply (IHp t (LElt l i)); tauto.
    + eapply (IHl IHps Hps (S i) ts (proj2 Hw) H).
  - destruct t as [| | | |us]; cbn in Hw; try tauto. cbn in H. destruct H as [<-|[]]. reflexivity.
  - destruct t as [| | | |us]; cbn in Hw; try tauto. cbn in H. destruct (nth_error us tag) as [[u|]|] eqn:E1; try tauto. destruct H as [<-|H]; [reflexivity|]. apply (IH u (LData l)); auto.
Qed.

Lemma first_none ps v : first_arm ps v = None <-> forall p, In p ps -> pmatch p v = false.
Proof.
  induction ps as [|p ps IH]; cbn; [split; [intros _ p []|reflexivity]|]. destruct (pmatch p v) eqn:E.
  - split; [discriminate|]. intros H. rewrite (H p (or_introl eq_refl)) in E. discriminate.
  - split.
    + intros H. destruct (first_arm ps v); [discriminate|]. intros q [<-|Hq]; [exact E|]. now apply IH.
    + intros H. rewrite (proj2 IH); [reflexivity|]. auto.
Qed.

Section Exh.
Variables (ps : list pat) (t : ty).
Hypothesis H : okpats ps t.
Hypothesis HF : fair (Z.of_nat (length (allrows ps t))) t.
Theorem gendtree_full d : gendtree ps t = Ok d -> checked (S (root d)) (dnodes d) (root d) = true -> forall v, wtv v t -> first_arm ps v <> None.
Proof.
  intros GD C v Hv E. pose proof (gendtree_run ps t H d v GD Hv) as GR. rewrite E in GR. unfold gendtree in GD. fold (rows_of (allrows ps t)) in GD. destruct (negb (caps_ok _)); [discriminate|].
  destruct (compile _ (rows_of (allrows ps t)) _) as [[i s]| | | | |] eqn:Ec; try discriminate. destruct (find _ (number 0 (allrows ps t))); [discriminate|]. destruct (verifymatch _ _ _); [|discriminate]. injection GD as <-. cbn [root dnodes arms] in *.
  set (origs := map (fun x => slots (snd x)) (allrows ps t)).
  assert (OI : forall R, In R origs -> exists q, plain q = true /\ wtp q t /\ R = psl q t LVar [O]) by (intros R HR; now apply (orig_in ps t H)).
  destruct (compile_full origs (origs_up ps t H) (origs_cons ps t H)) with (N := length (allrows ps t)) (fuel := S (nslots (rows_of (allrows ps t)))) (rows := rows_of (allrows ps t)) (s := mkst (map (fun _ => NAcc) (allrows ps t)) []) (d := i) (s' := s) (D := @nil (path * Z)) as (_ & _ & _ & _ & FF & _).
  - intros R1 R2 s1 s2 H1 H2 I1 I2 _ _ EL. apply OI in H1 as (q1 & A1 & B1 & ->). apply OI in H2 as (q2 & A2 & B2 & ->). rewrite (psl_lpath q1 t LVar s1 A1 B1 I1), (psl_lpath q2 t LVar s2 A2 B2 I2). now rewrite EL.
  - intros R x k HR Hx Sx. apply OI in HR as (q & A & B & ->). eapply psl_inr; eauto.
  - intros R x HR Hx Ix. apply OI in HR as (q & A & B & ->). eapply psl_fair; eauto.
  - exact Ec.
  - apply start_wf.
  - apply rows_accs.
  - apply (rows_inv ps t).
  - intros j l es any nc N. cbn in N. rewrite nth_error_map in N. destruct (nth_error (allrows ps t) j); discriminate.
  - unfold rows_of. rewrite map_length, number_len. lia.
  - apply (FF C v (origs_vok ps t H v Hv)); [|exact GR]. rewrite Forall_forall. intros r _ R x _ _ Q. discriminate.
Qed.

(* rows that look at one place *)
Definition nocons (r : row) : Prop := forall s, In s (rslots r) -> iscons s = false.
Lemma find_nocons r : nocons r -> find iscons (rslots r) = None.
Proof. intros N. destruct (find iscons (rslots r)) eqn:F; [|reflexivity]. apply find_some in F as [F I]. rewrite (N _ F) in I. discriminate. Qed.
Lemma compile_nocons fuel r rows s : nocons r -> compile (S fuel) (r :: rows) s = Ok (final r, mkst (nodes s) (final r :: refd s)).
Proof. intros N. rewrite compile_S. now rewrite (find_nocons r N). Qed.
Definition anyacc (ns : list node) : Prop := forall i l es a nc, nth_error ns i = Some (NTest l es (Some a) nc) -> nth_error ns a = Some NAcc.
Lemma compile_onep P fuel rows s d s' : compile fuel rows s = Ok (d, s') -> (forall r x, In r rows -> In x (rslots r) -> iscons x = true -> spath x = P) -> allupath rows -> accs rows s ->
  (forall i x, nth_error (nodes s) i = Some x -> x = NAcc) -> anyacc (nodes s').
Proof.
  destruct fuel as [|fuel]; [discriminate|]. destruct rows as [|r0 rows]; [discriminate|]. intros E HP U A HA. rewrite compile_S in E.
  assert (base : forall ns, ns = nodes s -> anyacc ns) by (intros ns -> i l es a nc N; apply HA in N; discriminate).
  destruct (find iscons (rslots r0)) as [sl|] eqn:F; [|injection E as <- <-; now apply base].
  apply find_some in F as [F1 F2]. assert (Psl := HP r0 sl (or_introl eq_refl) F1 F2). rewrite Psl in E.
  assert (HE : forall cs t es t1, edges_loop fuel P (r0 :: rows) cs t = Ok (es, t1) -> nodes t = nodes s -> nodes t1 = nodes s).
  { induction cs as [|k cs IH]; intros t0 es t1 E0 Et; [cbn in E0; injection E0 as <- <-; exact Et|]. rewrite edges_cons in E0.
    destruct (filter_map (project k P) (r0 :: rows)) as [|p0 pr] eqn:Ep; [eapply IH; eauto|].
    assert (N0 : nocons p0).
    { assert (I : In p0 (filter_map (project k P) (r0 :: rows))) by (rewrite Ep; now left). apply in_filter_map in I as (x & Hx & Ex). apply project_shape in Ex. subst p0. intros y Hy. cbn in Hy. apply filter_In in Hy as [Hy Ny].
      destruct (iscons y) eqn:Iy; [|reflexivity]. rewrite <- (HP x y Hx Hy Iy) in Ny. unfold at_path in Ny. rewrite patheq_refl in Ny. discriminate. }
    destruct fuel as [|fuel']; [discriminate|]. rewrite (compile_nocons fuel' p0 pr t0 N0) in E0.
    destruct (edges_loop (S fuel') P (r0 :: rows) cs _) as [[es' t2]| | | | |] eqn:El; try discriminate. injection E0 as <- <-. eapply IH; [exact El|exact Et]. }
  destruct (edges_loop fuel P (r0 :: rows) _ s) as [[es s1]| | | | |] eqn:El; try discriminate. pose proof (HE _ _ _ _ El eq_refl) as N1.
  assert (MK : forall t any, nodes t = nodes s -> (forall a, any = Some a -> nth_error (nodes s) a = Some NAcc) -> mknode t (sload sl) es any (snd (styp sl)) = Ok (d, s') -> anyacc (nodes s')).
  { intros t0 any Et Ha HM. unfold mknode in HM. destruct (search (nodes t0) 0 (sload sl) es any) as [j| |] eqn:Q; [| |discriminate]; injection HM as <- <-; cbn [nodes].
    - destruct (search_found _ _ _ _ _ _ Q) as (nc & _ & Nj). rewrite Et in Nj. apply HA in Nj. discriminate.
    - intros i l es' a nc Ni. rewrite Et in *. destruct (Nat.lt_ge_cases i (length (nodes s))) as [Hi|Hi].
      + rewrite nth_error_app1 in Ni by exact Hi. apply HA in Ni. discriminate.
      + rewrite nth_error_app2 in Ni by exact Hi. destruct (i - length (nodes s))%nat as [|n]; cbn in Ni; [|destruct n; discriminate]. injection Ni as _ _ -> _. specialize (Ha a eq_refl).
        rewrite nth_error_app1; [exact Ha|]. apply nth_error_Some. congruence. }
  destruct (filter (is_default P) (r0 :: rows)) as [|d0 ds] eqn:Ed; [eapply MK; [exact N1| |exact E]; intros ? C; discriminate|].
  assert (I0 : In d0 (r0 :: rows) /\ is_default P d0 = true) by (apply filter_In; rewrite Ed; now left). destruct I0 as [I0 D0].
  assert (N0 : nocons d0).
  { intros y Hy. destruct (iscons y) eqn:Iy; [|reflexivity]. unfold is_default in D0. assert (FA : find_at P (rslots d0) = Some y).
    { apply find_at_spec; [unfold allupath in U; rewrite Forall_forall in U; now apply U|]. split; [exact Hy|]. exact (HP d0 y I0 Hy Iy). }
    rewrite FA, Iy in D0. discriminate. }
  destruct fuel as [|fuel']; [discriminate|]. rewrite (compile_nocons fuel' d0 ds s1 N0) in E. eapply MK; [|  |exact E]; [exact N1|]. intros a Ea. injection Ea as <-. now apply A.
Qed.
Lemma verify_checked ns : wf ns -> anyacc ns -> forall f i, (i < f)%nat -> verifymatch f ns i = checked f ns i.
Proof.
  intros W AA. induction f as [|f IH]; intros i Hi; [lia|]. cbn. destruct (nth_error ns i) as [[|l es any nc]|] eqn:E; try reflexivity. pose proof (W i _ E) as [W1 W2].
  rewrite (forallb_ext_in (fun e => verifymatch f ns (snd e)) (fun e => checked f ns (snd e))).
  2: { intros e He. apply IH. specialize (W1 e He). lia. }
  destruct any as [a|]; [|now rewrite Bool.andb_true_r].
  specialize (W2 a eq_refl). pose proof (AA _ _ _ _ _ E) as Ea. destruct f as [|f']; [lia|]. cbn [checked]. now rewrite Ea, Bool.andb_true_r.
Qed.
Theorem gendtree_shallow d : forallb shallow ps = true -> gendtree ps t = Ok d -> forall v, wtv v t -> first_arm ps v <> None.
Proof.
  intros SH GD. apply (gendtree_full d GD). pose proof GD as GD'. unfold gendtree in GD. fold (rows_of (allrows ps t)) in GD. destruct (negb (caps_ok _)); [discriminate|].
  destruct (compile _ (rows_of (allrows ps t)) _) as [[i s]| | | | |] eqn:Ec; try discriminate. destruct (find _ (number 0 (allrows ps t))); [discriminate|]. destruct (verifymatch _ _ _) eqn:V; [|discriminate]. injection GD as <-. cbn [root dnodes arms] in *.
  destruct (compile_rows ps t H _ _ _ Ec) as [W _]. rewrite <- V. symmetry. apply verify_checked; [exact W| |lia].
  eapply compile_onep with (P := match t with TUn _ => [O; O] | _ => [O] end); [exact Ec| |apply rows_up|apply rows_accs|].
  - intros r x Hr Hx Ix. apply in_map_iff in Hr as ([k y] & <- & Hy). cbn in Hx. apply number_in in Hy as [_ Hy]. cbn in Hy. rewrite (allrows_alts ps t H) in Hy. rewrite Nat.sub_0_r, nth_error_map in Hy.
    destruct (nth_error (altlist 0 ps) k) as [[[j q] b]|] eqn:N; [|discriminate]. injection Hy as <-. cbn in Hx. apply nth_error_In in N.
    destruct (altlist_ok _ _ _ _ H N) as [_ Wq]. cbn in Wq.
    assert (SQ : shallow q = true).
    { apply in_flat_map in N as ([j' p] & Np & Nq). apply number_in in Np as [_ Np]. apply nth_error_In in Np. rewrite forallb_forall in SH. specialize (SH _ Np). cbn in *. apply in_map_iff in Nq as (q' & Eq & Nq). injection Eq as _ <- _.
      destruct p; cbn in SH; try discriminate; cbn in Nq; destruct Nq as [<-|[]]; exact SH. }
    destruct q as [| | | | | |tag [pl|]| |]; try discriminate SQ.
    + destruct t; destruct Hx as [<-|[]]; discriminate.
    + destruct t; destruct Hx as [<-|[]]; discriminate.
    + destruct t; cbn in Wq; try tauto. destruct Hx as [<-|[]]. reflexivity.
    + destruct t as [| | | |us]; cbn in Wq; try tauto. cbn in Hx. destruct (nth_error us tag) as [[u|]|]; try tauto. destruct Hx as [<-|Hx]; [reflexivity|].
      destruct pl; try discriminate SQ; destruct Hx as [<-|[]]; discriminate.
    + destruct t as [| | | |us]; cbn in Wq; try tauto. cbn in Hx. destruct Hx as [<-|[]]. reflexivity.
  - intros j x N. cbn in N. rewrite nth_error_map in N. destruct (nth_error (allrows ps t) j); [|discriminate]. now injection N.
Qed.
End Exh.
