(* The decision tree compiler on rows of slots: it terminates, and the tree finds the first row all of whose slots hold. *)
From Coq Require Import Lia ZifyBool ZifyNat.
From Verif Require Import Base Match_Spec Match_Model.
Open Scope Z_scope.

Lemma patheq_iff a b : patheq a b = true <-> a = b.
Proof. unfold patheq. destruct (path_eq_dec a b); split; congruence. Qed.
Lemma patheq_refl a : patheq a a = true.
Proof. now apply patheq_iff. Qed.
Lemma at_path_iff pi s : at_path pi s = true <-> pi = spath s.
Proof. apply patheq_iff. Qed.
Lemma loadeq_iff a b : loadeq a b = true <-> a = b.
Proof. unfold loadeq. destruct (load_eq_dec a b); split; congruence. Qed.
Lemma zmem_iff k l : zmem k l = true <-> In k l.
Proof. unfold zmem. rewrite existsb_exists. split; [intros (x & H & E); apply Z.eqb_eq in E; now subst|intros H; exists k; split; [exact H|apply Z.eqb_refl]]. Qed.
Lemma edges_eqb_eq a : forall b, edges_eqb a b = true -> a = b.
Proof.
  induction a as [|[k i] a IH]; intros [|[j m] b] H; cbn in H; try discriminate; [reflexivity|].
  apply andb_prop in H as [H1 H2]. apply andb_prop in H1 as [H0 H1]. apply Nat.eqb_eq in H0. apply Z.eqb_eq in H1. subst.
  f_equal. now apply IH.
Qed.

(* unique paths *)
Definition upath (ss : list slot) : Prop := NoDup (map spath ss).
Lemma upath_filter f ss : upath ss -> upath (filter f ss).
Proof.
  unfold upath. induction ss as [|s ss IH]; cbn; [auto|]. intros H. inversion H; subst.
  destruct (f s); cbn; [|now apply IH]. constructor; [|now apply IH].
  intros C. apply H2. apply in_map_iff in C as (x & E & C). apply filter_In in C. apply in_map_iff. exists x. tauto.
Qed.
Lemma upath_inj ss a b : upath ss -> In a ss -> In b ss -> spath a = spath b -> a = b.
Proof.
  unfold upath. induction ss as [|s ss IH]; cbn; [tauto|]. intros H. inversion H; subst. intros [->|Ha] [->|Hb] E; auto.
  - exfalso. apply H2. rewrite E. now apply in_map.
  - exfalso. apply H2. rewrite <- E. now apply in_map.
Qed.
Lemma find_at_spec pi ss : upath ss -> forall s, find_at pi ss = Some s <-> In s ss /\ spath s = pi.
Proof.
  intros U s. unfold find_at. split.
  - intros H. apply find_some in H as [H E]. apply in_rev in H. apply at_path_iff in E. now split.
  - intros [H E]. destruct (find (at_path pi) (rev ss)) as [x|] eqn:F.
    + apply find_some in F as [F E2]. apply in_rev in F. apply at_path_iff in E2. f_equal. eapply upath_inj; eauto. congruence.
    + apply find_none with (x := s) in F; [|now apply -> in_rev]. unfold at_path in F. rewrite E, patheq_refl in F. discriminate.
Qed.
Lemma find_at_none pi ss : find_at pi ss = None <-> forall s, In s ss -> spath s <> pi.
Proof.
  unfold find_at. split.
  - intros F s H E. apply find_none with (x := s) in F; [|now apply -> in_rev]. unfold at_path in F. rewrite E, patheq_refl in F. discriminate.
  - intros H. destruct (find _ _) as [x|] eqn:F; [|reflexivity]. apply find_some in F as [F E]. apply in_rev in F. apply at_path_iff in E.
    exfalso. apply (H x F). congruence.
Qed.

(* the literals at a path *)
Lemma addlit_in pi cs s k : In k (addlit pi cs s) <-> In k cs \/ (spath s = pi /\ spat s = Some k).
Proof.
  unfold addlit. destruct (spat s) as [j|] eqn:E; [|split; [tauto|intros [?|[_ ?]]; [assumption|discriminate]]].
  destruct (at_path pi s) eqn:P; cbn.
  - apply at_path_iff in P. destruct (zmem j cs) eqn:M; cbn.
    + split; [tauto|]. intros [H|[_ H]]; [exact H|]. injection H as <-. now apply zmem_iff.
    + rewrite in_app_iff. cbn. split; [intros [H|[H|[]]]; [tauto|right; split; congruence]|]. intros [H|[_ H]]; [tauto|injection H; tauto].
  - split; [tauto|]. intros [H|[H _]]; [exact H|]. subst pi. unfold at_path in P. rewrite patheq_refl in P. discriminate.
Qed.
Lemma addlit_nodup pi cs s : NoDup cs -> NoDup (addlit pi cs s).
Proof.
  unfold addlit. intros H. destruct (spat s) as [j|]; [|exact H]. destruct (at_path pi s); cbn; [|exact H]. destruct (zmem j cs) eqn:M; cbn; [exact H|].
  assert (M' : ~ In j cs) by (rewrite <- zmem_iff; congruence).
  apply NoDup_rev in H. rewrite <- (rev_involutive (cs ++ [j])). apply NoDup_rev. rewrite rev_app_distr. cbn. constructor; [|exact H].
  now rewrite <- in_rev.
Qed.
Lemma cset_acc pi ss : forall cs k, In k (fold_left (addlit pi) ss cs) <-> In k cs \/ exists s, In s ss /\ spath s = pi /\ spat s = Some k.
Proof.
  induction ss as [|s ss IH]; intros cs k; cbn.
  - split; [tauto|]. intros [?|(x & [] & _)]; assumption.
  - rewrite IH, addlit_in. split.
    + intros [[H|H]|(x & H)]; [tauto|right; exists s; tauto|right; exists x; tauto].
    + intros [H|(x & [->|H] & E)]; [tauto|tauto|right; exists x; tauto].
Qed.
Lemma cset_in pi rows k : In k (cset pi rows) <-> exists r s, In r rows /\ In s (rslots r) /\ spath s = pi /\ spat s = Some k.
Proof.
  unfold cset. rewrite cset_acc. cbn. split.
  - intros [[]|(s & H & E)]. apply in_flat_map in H as (r & H1 & H2). exists r, s. tauto.
  - intros (r & s & H1 & H2 & E). right. exists s. split; [apply in_flat_map; exists r; tauto|exact E].
Qed.
Lemma cset_nodup pi rows : NoDup (cset pi rows).
Proof.
  unfold cset. assert (H : forall ss cs, NoDup cs -> NoDup (fold_left (addlit pi) ss cs)) by
    (induction ss as [|s ss IH]; intros cs H; cbn; [exact H|apply IH; now apply addlit_nodup]).
  apply H. constructor.
Qed.

(* project *)
Lemma in_filter_map {A B} (f : A -> option B) l y : In y (filter_map f l) <-> exists x, In x l /\ f x = Some y.
Proof.
  induction l as [|a l IH]; cbn; [split; [tauto|intros (x & [] & _)]|].
  destruct (f a) as [b|] eqn:E; cbn; rewrite IH.
  - split; [intros [<-|(x & H1 & H2)]; [exists a; tauto|exists x; tauto]|]. intros (x & [<-|H1] & H2); [left; congruence|right; exists x; tauto].
  - split; [intros (x & H1 & H2); exists x; tauto|]. intros (x & [<-|H1] & H2); [congruence|exists x; tauto].
Qed.
Lemma project_shape k pi r r' : project k pi r = Some r' -> r' = mkrow (final r) (filter (fun s => negb (at_path pi s)) (rslots r)).
Proof.
  unfold project. destruct (find_at _ _) as [c|]; [destruct (spat c); [destruct (_ =? _)|]|]; intros H; congruence.
Qed.

(* termination *)
Lemma nslots_cons r rows : nslots (r :: rows) = (length (rslots r) + nslots rows)%nat.
Proof. unfold nslots. cbn. now rewrite app_length. Qed.
Lemma filter_le {A} (f : A -> bool) l : (length (filter f l) <= length l)%nat.
Proof. induction l as [|x l IH]; cbn; [lia|]. destruct (f x); cbn; lia. Qed.
Lemma filter_lt {A} (f : A -> bool) l x : In x l -> f x = false -> (length (filter f l) < length l)%nat.
Proof.
  induction l as [|y l IH]; cbn; [tauto|]. intros [->|H] E; [rewrite E; pose proof (filter_le f l); cbn; lia|].
  specialize (IH H E). destruct (f y); cbn; lia.
Qed.
Lemma nslots_project k pi rows : (nslots (filter_map (project k pi) rows) <= nslots rows)%nat.
Proof.
  induction rows as [|r rows IH]; [reflexivity|]. cbn [filter_map]. destruct (project k pi r) eqn:E; rewrite ?nslots_cons; [|lia].
  apply project_shape in E. subst. cbn [rslots]. pose proof (filter_le (fun s => negb (at_path pi s)) (rslots r)). lia.
Qed.
Lemma nslots_filter f rows : (nslots (filter f rows) <= nslots rows)%nat.
Proof. induction rows as [|r rows IH]; [reflexivity|]. cbn [filter]. destruct (f r); rewrite ?nslots_cons; lia. Qed.
Lemma nslots_project_lt k sl r0 rows : In sl (rslots r0) -> (nslots (filter_map (project k (spath sl)) (r0 :: rows)) < nslots (r0 :: rows))%nat.
Proof.
  intros H. cbn [filter_map]. pose proof (nslots_project k (spath sl) rows). rewrite (nslots_cons r0 rows).
  destruct (project _ _ r0) eqn:E.
  - apply project_shape in E. subst. rewrite nslots_cons. cbn [rslots].
    assert (Hl : (length (filter (fun s => negb (at_path (spath sl) s)) (rslots r0)) < length (rslots r0))%nat).
    { apply filter_lt with sl; [exact H|]. unfold at_path. now rewrite patheq_refl. }
    lia.
  - destruct (rslots r0); [destruct H|cbn; lia].
Qed.
Lemma default_lt sl r0 rows : upath (rslots r0) -> In sl (rslots r0) -> iscons sl = true ->
  (nslots (filter (is_default (spath sl)) (r0 :: rows)) < nslots (r0 :: rows))%nat.
Proof.
  intros U H I. cbn [filter]. pose proof (nslots_filter (is_default (spath sl)) rows). rewrite nslots_cons.
  assert (E : is_default (spath sl) r0 = false).
  { unfold is_default. assert (F : find_at (spath sl) (rslots r0) = Some sl) by (now apply find_at_spec). now rewrite F, I. }
  rewrite E. destruct (rslots r0); [destruct H|cbn; lia].
Qed.

Definition allupath (rows : list row) : Prop := Forall (fun r => upath (rslots r)) rows.
Lemma allupath_project k pi rows : allupath rows -> allupath (filter_map (project k pi) rows).
Proof.
  unfold allupath. rewrite !Forall_forall. intros H r Hr. apply in_filter_map in Hr as (x & Hx & E). apply project_shape in E. subst. cbn. apply upath_filter; auto.
Qed.
Lemma allupath_filter f rows : allupath rows -> allupath (filter f rows).
Proof. unfold allupath. rewrite !Forall_forall. intros H r Hr. apply filter_In in Hr. now apply H. Qed.

(* the inner loop of compile, named *)
Definition edges_loop (fuel : nat) (pi : path) (rows : list row) : list Z -> st -> res (list (Z * nat) * st) :=
  fix go (cs : list Z) (s : st) : res (list (Z * nat) * st) :=
    match cs with
    | [] => Ok ([], s)
    | k :: cs => match filter_map (project k pi) rows with
      | [] => go cs s
      | rs => match compile fuel rs s with
        | Ok (d, s1) => match go cs s1 with Ok (es, s2) => Ok ((k, d) :: es, s2) | NullDeref => NullDeref | _ => NoFuel end
        | NullDeref => NullDeref | _ => NoFuel end
      end
    end.
Lemma compile_S fuel r0 rows s : compile (S fuel) (r0 :: rows) s =
  match find iscons (rslots r0) with
  | None => Ok (final r0, mkst (nodes s) (final r0 :: refd s))
  | Some sl =>
    match edges_loop fuel (spath sl) (r0 :: rows) (cset (spath sl) (r0 :: rows)) s with
    | Ok (es, s1) =>
      match filter (is_default (spath sl)) (r0 :: rows) with
      | [] => mknode s1 (sload sl) es None (snd (styp sl))
      | ds => match compile fuel ds s1 with
        | Ok (a, s2) => mknode s2 (sload sl) es (Some a) (snd (styp sl))
        | NullDeref => NullDeref | _ => NoFuel end
      end
    | NullDeref => NullDeref | _ => NoFuel
    end
  end.
Proof. reflexivity. Qed.

Lemma edges_cons fuel pi rows k cs s : edges_loop fuel pi rows (k :: cs) s =
  match filter_map (project k pi) rows with
  | [] => edges_loop fuel pi rows cs s
  | rs => match compile fuel rs s with
    | Ok (d, s1) => match edges_loop fuel pi rows cs s1 with Ok (es, s2) => Ok ((k, d) :: es, s2) | NullDeref => NullDeref | _ => NoFuel end
    | NullDeref => NullDeref | _ => NoFuel end
  end.
Proof. reflexivity. Qed.

Inductive finished {A} : res A -> Prop := fin_ok x : finished (Ok x) | fin_null : finished NullDeref.
Lemma mknode_finished s l es any nc : finished (mknode s l es any nc).
Proof. unfold mknode. destruct (search _ _ _ _ _); constructor. Qed.
Lemma compile_fuel : forall fuel rows s, rows <> [] -> allupath rows -> (nslots rows < fuel)%nat -> finished (compile fuel rows s).
Proof.
  induction fuel as [|fuel IH]; intros rows s Hn U Hf; [lia|]. destruct rows as [|r0 rows]; [congruence|]. rewrite compile_S.
  destruct (find iscons (rslots r0)) as [sl|] eqn:F; [|constructor].
  apply find_some in F as [Hin Hc].
  assert (HE : forall cs s, finished (edges_loop fuel (spath sl) (r0 :: rows) cs s)).
  { induction cs as [|k cs IHc]; intros s0; [constructor|]. rewrite edges_cons.
    destruct (filter_map _ _) as [|r1 rs] eqn:E; [apply IHc|].
    assert (G : finished (compile fuel (r1 :: rs) s0)).
    { rewrite <- E. apply IH; [rewrite E; discriminate|now apply allupath_project|]. pose proof (nslots_project_lt k sl r0 rows Hin). lia. }
    inversion G as [[d s1] E2|E2]; [|constructor]. specialize (IHc s1). inversion IHc as [[es s2] E3|E3]; constructor. }
  specialize (HE (cset (spath sl) (r0 :: rows)) s). inversion HE as [[es s1] E1|E1]; [|constructor].
  destruct (filter (is_default (spath sl)) (r0 :: rows)) as [|d0 ds] eqn:E; [apply mknode_finished|].
  assert (G : finished (compile fuel (d0 :: ds) s1)).
  { rewrite <- E. apply IH; [rewrite E; discriminate|now apply allupath_filter|].
    inversion U; subst. pose proof (default_lt sl r0 rows H1 Hin Hc). lia. }
  inversion G as [[a s2] E2|E2]; [apply mknode_finished|constructor].
Qed.

(* the store: children have smaller numbers *)
Definition wfnode (i : nat) (d : node) : Prop :=
  match d with NAcc => True | NTest _ es any _ => (forall e, In e es -> (snd e < i)%nat) /\ (forall a, any = Some a -> (a < i)%nat) end.
Definition wf (ns : list node) : Prop := forall i d, nth_error ns i = Some d -> wfnode i d.
Definition strip (d : node) : node := match d with NAcc => NAcc | NTest l es any _ => NTest l es any 0 end.
Definition ext (a b : st) : Prop := (exists m, map strip (nodes b) = map strip (nodes a) ++ m) /\ incl (refd a) (refd b).
Lemma ext_refl a : ext a a.
Proof. split; [exists []; now rewrite app_nil_r|apply incl_refl]. Qed.
Lemma ext_trans a b c : ext a b -> ext b c -> ext a c.
Proof. intros [[m E] I] [[m' E'] I']. split; [exists (m ++ m'); rewrite E', E, app_assoc; reflexivity|eapply incl_tran; eauto]. Qed.
Lemma ext_len a b : ext a b -> (length (nodes a) <= length (nodes b))%nat.
Proof. intros [[m E] _]. apply (f_equal (@length _)) in E. rewrite app_length, !map_length in E. lia. Qed.

Lemma exec_strip f : forall ns i v, exec f (map strip ns) i v = exec f ns i v.
Proof.
  induction f as [|f IH]; intros ns i v; [reflexivity|]. cbn. rewrite nth_error_map. destruct (nth_error ns i) as [d|]; [|reflexivity].
  destruct d as [|l es any nc]; [reflexivity|]. cbn. destruct (loadv l v) as [[k| | | |]|]; try reflexivity.
  destruct (find _ es); [apply IH|]. destruct any; [apply IH|reflexivity].
Qed.
Lemma wf_strip ns : wf (map strip ns) <-> wf ns.
Proof.
  unfold wf. split; intros H i d E.
  - specialize (H i (strip d)). rewrite nth_error_map, E in H. specialize (H eq_refl). destruct d; exact H.
  - rewrite nth_error_map in E. destruct (nth_error ns i) as [d0|] eqn:E0; [|discriminate]. injection E as <-. specialize (H i d0 E0). destruct d0; exact H.
Qed.
Lemma exec_fuel ns v : wf ns -> forall i f, (i < f)%nat -> exec f ns i v = exec (S i) ns i v.
Proof.
  intros W. induction i as [i IH] using lt_wf_ind. intros f Hf. destruct f as [|f]; [lia|]. cbn.
  destruct (nth_error ns i) as [d|] eqn:E; [|reflexivity]. specialize (W i d E). destruct d as [|l es any nc]; [reflexivity|]. destruct W as [W1 W2].
  destruct (loadv l v) as [[k| | | |]|]; try reflexivity.
  destruct (find _ es) as [e|] eqn:F.
  - apply find_some in F as [F _]. specialize (W1 e F). rewrite (IH (snd e) W1 f) by lia. rewrite (IH (snd e) W1 i) by lia. reflexivity.
  - destruct any as [a|]; [|reflexivity]. specialize (W2 a eq_refl). rewrite (IH a W2 f) by lia. rewrite (IH a W2 i) by lia. reflexivity.
Qed.
Lemma exec_app ns m v : wf ns -> forall i f, (i < length ns)%nat -> exec f (ns ++ m) i v = exec f ns i v.
Proof.
  intros W. induction i as [i IH] using lt_wf_ind. intros f Hi. destruct f as [|f]; [reflexivity|]. cbn.
  rewrite nth_error_app1 by exact Hi. destruct (nth_error ns i) as [d|] eqn:E; [|reflexivity]. specialize (W i d E). destruct d as [|l es any nc]; [reflexivity|]. destruct W as [W1 W2].
  destruct (loadv l v) as [[k| | | |]|]; try reflexivity.
  destruct (find _ es) as [e|] eqn:F.
  - apply find_some in F as [F _]. specialize (W1 e F). apply IH; lia.
  - destruct any as [a|]; [|reflexivity]. specialize (W2 a eq_refl). apply IH; lia.
Qed.
Lemma exec_ext a b v i f : wf (nodes a) -> ext a b -> (i < length (nodes a))%nat -> exec f (nodes b) i v = exec f (nodes a) i v.
Proof.
  intros W [[m E] _] Hi. rewrite <- exec_strip, E, exec_app; [apply exec_strip|now apply wf_strip|now rewrite map_length].
Qed.

Lemma search_found ns : forall i l es any j, search ns i l es any = Found j -> exists nc, (i <= j)%nat /\ nth_error ns (j - i) = Some (NTest l es any nc).
Proof.
  induction ns as [|d ns IH]; intros i l es any j H; cbn in H; [discriminate|].
  destruct (dtreusable d l es any) as [b|] eqn:E; [|discriminate]. destruct b.
  - injection H as <-. destruct d as [|l' es' any' nc]; cbn in E; [discriminate|].
    destruct (loadeq l' l) eqn:L; cbn in E; [|discriminate]. destruct (edges_eqb es' es) eqn:Q; cbn in E; [|discriminate].
    apply loadeq_iff in L. apply edges_eqb_eq in Q. exists nc. split; [lia|]. rewrite Nat.sub_diag. cbn. subst.
    destruct any', any; try discriminate; [|reflexivity]. injection E as E. apply Nat.eqb_eq in E. now subst.
  - destruct (IH _ _ _ _ _ H) as (nc & Hj & E2). exists nc. split; [lia|]. replace (j - i)%nat with (S (j - S i)) by lia. exact E2.
Qed.
Lemma map_upd_strip ns : forall i d e, nth_error ns i = Some d -> strip d = strip e -> map strip (upd ns i e) = map strip ns.
Proof.
  induction ns as [|x ns IH]; intros [|i] d e H E; cbn in *; try discriminate; [injection H as ->; now rewrite E|]. f_equal. eapply IH; eauto.
Qed.
(* the node made for a test, whether new or shared *)
Lemma mknode_spec s l es any nc i s' : mknode s l es any nc = Ok (i, s') -> wf (nodes s) ->
  (forall e, In e es -> (snd e < length (nodes s))%nat) -> (forall a, any = Some a -> (a < length (nodes s))%nat) ->
  ext s s' /\ wf (nodes s') /\ refd s' = refd s /\ nth_error (nodes s') i = Some (NTest l es any nc) /\
  (forall j, j <> i -> (j < length (nodes s))%nat -> nth_error (nodes s') j = nth_error (nodes s) j) /\ (length (nodes s') <= Nat.max (length (nodes s)) (S i))%nat.
Proof.
  unfold mknode. intros H W He Ha. destruct (search (nodes s) 0 l es any) as [j| |] eqn:F; [| |discriminate]; injection H as <- <-; cbn [nodes refd].
  - destruct (search_found _ _ _ _ _ _ F) as (nc' & _ & E). rewrite Nat.sub_0_r in E.
    assert (M : map strip (upd (nodes s) j (NTest l es any nc)) = map strip (nodes s)) by (eapply map_upd_strip; [exact E|reflexivity]).
    assert (Hj : (j < length (nodes s))%nat) by (apply nth_error_Some; congruence).
    repeat split.
    + exists []. cbn. now rewrite M, app_nil_r.
    + apply incl_refl.
    + apply wf_strip. rewrite M. now apply wf_strip.
    + rewrite (nth_error_nth' _ NAcc) by (now rewrite upd_length). f_equal. now apply nth_upd_same.
    + intros k Hk Hl. rewrite !(nth_error_nth' _ NAcc) by (rewrite ?upd_length; lia). f_equal. apply nth_upd_other. congruence.
    + rewrite upd_length. lia.
  - repeat split.
    + exists [NTest l es any 0]. cbn. now rewrite map_app.
    + apply incl_refl.
    + intros k d E. destruct (Nat.lt_ge_cases k (length (nodes s))) as [Hk|Hk].
      * rewrite nth_error_app1 in E by exact Hk. now apply W.
      * rewrite nth_error_app2 in E by exact Hk. destruct (k - length (nodes s))%nat as [|n] eqn:Q; cbn in E; [|destruct n; discriminate].
        injection E as <-. replace k with (length (nodes s)) by lia. split; assumption.
    + rewrite nth_error_app2, Nat.sub_diag by lia. reflexivity.
    + intros k Hk Hl. now rewrite nth_error_app1.
    + rewrite app_length. cbn. lia.
Qed.

(* ---- what rows mean on a value ---- *)
Definition holds (v : val) (s : slot) : Prop := match spat s with None => True | Some k => loadv (sload s) v = Some (VLit k) end.
Definition holdsb (v : val) (s : slot) : bool := match spat s with None => true | Some k => match loadv (sload s) v with Some (VLit j) => j =? k | _ => false end end.
Lemma holdsb_iff v s : holdsb v s = true <-> holds v s.
Proof.
  unfold holdsb, holds. destruct (spat s) as [k|]; [|tauto]. destruct (loadv _ _) as [[j| | | |]|]; try (split; congruence).
  rewrite Z.eqb_eq. split; [now intros ->|congruence].
Qed.
Definition rowb (v : val) (ss : list slot) : bool := forallb (holdsb v) ss.
Definition inr (s : slot) (k : Z) : Prop := fst (fst (styp s)) <= k < fst (fst (styp s)) + snd (fst (styp s)).
(* a slot's part of the value exists once the slots before it hold *)
Definition guarded (v : val) (R : list slot) : Prop := forall pre s post, R = pre ++ s :: post -> Forall (holds v) pre -> iscons s = true ->
  exists k, loadv (sload s) v = Some (VLit k) /\ inr s k.
Definition clash (u1 u2 : slot) : Prop := exists a b, spath u1 = spath u2 /\ spat u1 = Some a /\ spat u2 = Some b /\ a <> b.
(* slots of two rows at the same place read the same thing, unless the rows already disagree before *)
Definition consistent (R1 R2 : list slot) : Prop := forall pre s1 post s2, R1 = pre ++ s1 :: post -> In s2 R2 -> spath s1 = spath s2 ->
  iscons s1 = true -> iscons s2 = true ->
  (sload s1 = sload s2 /\ styp s1 = styp s2) \/ exists u1 u2, In u1 pre /\ In u2 R2 /\ clash u1 u2.

Section Rows.
Variable origs : list (list slot).
Hypothesis OU : forall R, In R origs -> upath R.
Hypothesis OC : forall R1 R2, In R1 origs -> In R2 origs -> consistent R1 R2.

Definition dset := list (path * Z).
Definition nd (D : dset) (s : slot) : bool := negb (existsb (fun e => patheq (fst e) (spath s)) D).
Lemma nd_false D s : nd D s = false <-> exists k, In (spath s, k) D.
Proof.
  unfold nd. rewrite Bool.negb_false_iff, existsb_exists. split.
  - intros ([p k] & H & E). apply patheq_iff in E. cbn in E. subst. now exists k.
  - intros (k & H). exists (spath s, k). split; [exact H|apply patheq_refl].
Qed.
(* the row comes from an original one by deleting the places in D, where it had no other literal *)
Definition Inv (D : dset) (r : row) : Prop := exists R, nth_error origs (final r) = Some R /\ rslots r = filter (nd D) R /\
  forall s a k, In s R -> spat s = Some a -> In (spath s, k) D -> a = k.
Definition InvV (v : val) (D : dset) (r : row) : Prop := forall R s, nth_error origs (final r) = Some R -> In s R -> nd D s = false -> holds v s.

Lemma Inv_up D r : Inv D r -> upath (rslots r).
Proof. intros (R & E & -> & _). apply upath_filter. apply OU. eapply nth_error_In; eauto. Qed.

(* the split of the original row at the first literal that remains *)
Lemma first_cons_split D R sl : find iscons (filter (nd D) R) = Some sl -> exists pre post, R = pre ++ sl :: post /\ iscons sl = true /\ nd D sl = true /\
  forall s, In s pre -> iscons s = true -> nd D s = false.
Proof.
  induction R as [|s R IH]; cbn; [discriminate|]. destruct (nd D s) eqn:N.
  - cbn. destruct (iscons s) eqn:I.
    + injection 1 as <-. exists [], R. repeat split; auto. intros x [].
    + intros H. destruct (IH H) as (pre & post & -> & H1 & H2 & H3). exists (s :: pre), post. repeat split; auto. intros x [<-|Hx] Hi; [congruence|auto].
  - intros H. destruct (IH H) as (pre & post & -> & H1 & H2 & H3). exists (s :: pre), post. repeat split; auto. intros x [<-|Hx] Hi; [exact N|auto].
Qed.
(* in rows with the same deleted places, a literal at the chosen place reads what the chosen slot reads *)
Lemma same_load D r0 r sl s : Inv D r0 -> Inv D r -> find iscons (rslots r0) = Some sl -> In s (rslots r) -> spath s = spath sl -> iscons s = true ->
  sload s = sload sl /\ styp s = styp sl.
Proof.
  intros (R0 & E0 & F0 & K0) (R & E & F & K) H Hs Hp Hi. rewrite F0 in H. destruct (first_cons_split _ _ _ H) as (pre & post & -> & I1 & N1 & P1).
  assert (Hs' : In s R) by (rewrite F in Hs; now apply filter_In in Hs).
  destruct (OC _ _ (nth_error_In _ _ E0) (nth_error_In _ _ E) pre sl post s eq_refl Hs' (eq_sym Hp) I1 Hi) as [[A B]|(u1 & u2 & U1 & U2 & a & b & Q & A & B & NE)]; [split; congruence|].
  exfalso. assert (N : nd D u1 = false) by (apply P1; [exact U1|unfold iscons; now rewrite A]).
  apply nd_false in N as (k & N). assert (a = k) by (apply (K0 u1 a k); [apply in_or_app; now left|exact A|exact N]).
  assert (b = k) by (apply (K u2 b k); [exact U2|exact B|now rewrite <- Q]). congruence.
Qed.

Lemma filter_filter {A} (f g : A -> bool) l : filter f (filter g l) = filter (fun x => f x && g x) l.
Proof. induction l as [|x l IH]; cbn; [reflexivity|]. destruct (g x); cbn; [destruct (f x); cbn; now rewrite IH|now rewrite Bool.andb_false_r]. Qed.
Lemma Inv_project D k pi r r' : Inv D r -> (forall s, In s (rslots r) -> True) -> project k pi r = Some r' -> (forall R s, nth_error origs (final r) = Some R -> In s R -> spath s = pi -> nd D s = true) ->
  Inv ((pi, k) :: D) r'.
Proof.
  intros I _ P Hpi. pose proof (Inv_up _ _ I) as U. destruct I as (R & E & F & K). pose proof (project_shape _ _ _ _ P). subst r'. exists R. cbn. repeat split; [exact E| |].
  - rewrite F, filter_filter. apply filter_ext. intros s. unfold nd, at_path. cbn. now rewrite Bool.negb_orb.
  - intros s a j Hs Ha [H|H]; [|eapply K; eauto]. injection H as Hp <-.
    assert (N : nd D s = true) by (eapply Hpi; eauto).
    assert (Hin : In s (rslots r)) by (rewrite F; apply filter_In; now split).
    unfold project in P. assert (FA : find_at pi (rslots r) = Some s) by (apply find_at_spec; [exact U|now split]).
    rewrite FA, Ha in P. destruct (a =? k) eqn:Q; [now apply Z.eqb_eq|discriminate].
Qed.

Definition firsto (v : val) (rows : list row) : outcome := match find (fun r => rowb v (rslots r)) rows with Some r => Accept (final r) | None => Falls end.
Definition vok (v : val) : Prop := forall R, In R origs -> guarded v R.
Definition good (s : st) (d : nat) (rows : list row) (D : dset) : Prop := (d < length (nodes s))%nat /\
  forall v, vok v -> Forall (InvV v D) rows -> exec (S d) (nodes s) d v = firsto v rows /\
    forall r, find (fun r => rowb v (rslots r)) rows = Some r -> In (final r) (refd s).
Lemma good_mono a b d rows D : wf (nodes a) -> ext a b -> good a d rows D -> good b d rows D.
Proof.
  intros W E [L G]. split; [pose proof (ext_len _ _ E); lia|]. intros v V I. destruct (G v V I) as [X Y]. split.
  - now rewrite (exec_ext a b v d (S d) W E L).
  - intros r F. apply (proj2 E). now apply Y.
Qed.

(* deleting a place where every literal is the value's keeps what a row says *)
Lemma project_find v k pi rows : (forall r s, In r rows -> In s (rslots r) -> spath s = pi -> spat s = Some k -> loadv (sload s) v = Some (VLit k)) ->
  (forall r s j, In r rows -> In s (rslots r) -> spath s = pi -> spat s = Some j -> j <> k -> holdsb v s = false) -> allupath rows ->
  match find (fun r => rowb v (rslots r)) rows with Some r => find (fun r => rowb v (rslots r)) (filter_map (project k pi) rows) = Some (mkrow (final r) (filter (fun s => negb (at_path pi s)) (rslots r)))
  | None => find (fun r => rowb v (rslots r)) (filter_map (project k pi) rows) = None end.
Proof.
  intros H1 H2 U. induction rows as [|r rows IH]; [reflexivity|].
  assert (IH' := IH (fun r s a => H1 r s (or_intror a)) (fun r s j a => H2 r s j (or_intror a)) ltac:(now inversion U)). clear IH.
  inversion U as [|? ? Ur _]; subst. cbn [find filter_map].
  assert (P : project k pi r = Some (mkrow (final r) (filter (fun s => negb (at_path pi s)) (rslots r))) /\ rowb v (filter (fun s => negb (at_path pi s)) (rslots r)) = rowb v (rslots r) \/
              project k pi r = None /\ rowb v (rslots r) = false).
  { unfold project. destruct (find_at pi (rslots r)) as [c|] eqn:F.
    - apply find_at_spec in F as [Fi Fp]; [|exact Ur].
      assert (Hr : holdsb v c = true -> rowb v (filter (fun s => negb (at_path pi s)) (rslots r)) = rowb v (rslots r)).
      { intros Hh. unfold rowb. apply Bool.eq_true_iff_eq. rewrite !forallb_forall. split; intros G s Hs.
        - destruct (at_path pi s) eqn:Q; [|apply G; apply filter_In; split; [exact Hs|now rewrite Q]].
          apply at_path_iff in Q. assert (s = c) by (eapply upath_inj; eauto; congruence). now subst.
        - apply filter_In in Hs. now apply G. }
      destruct (spat c) as [j|] eqn:S.
      + destruct (j =? k) eqn:Q.
        * apply Z.eqb_eq in Q. subst j. left. split; [reflexivity|]. apply Hr. apply holdsb_iff. unfold holds. rewrite S. apply (H1 r c); auto. now left.
        * right. split; [reflexivity|]. apply Z.eqb_neq in Q. pose proof (H2 r c j (or_introl eq_refl) Fi Fp S Q) as Z0.
          unfold rowb. destruct (forallb (holdsb v) (rslots r)) eqn:A; [|reflexivity]. rewrite forallb_forall in A. rewrite (A c Fi) in Z0. discriminate.
      + left. split; [reflexivity|]. apply Hr. apply holdsb_iff. unfold holds. now rewrite S.
    - left. split; [reflexivity|]. f_equal. rewrite find_at_none in F. clear -F. induction (rslots r) as [|s ss IH]; cbn; [reflexivity|].
      destruct (at_path pi s) eqn:Q; [apply at_path_iff in Q; exfalso; apply (F s); [now left|congruence]|]. cbn. f_equal. apply IH. intros x Hx. apply F. now right. }
  destruct P as [[P1 P2]|[P1 P2]]; rewrite P1.
  - cbn [find rslots]. rewrite P2. destruct (rowb v (rslots r)); [reflexivity|exact IH'].
  - rewrite P2. exact IH'.
Qed.
Lemma default_find v pi rows : (forall r s k, In r rows -> In s (rslots r) -> spath s = pi -> spat s = Some k -> holdsb v s = false) -> allupath rows ->
  find (fun r => rowb v (rslots r)) (filter (is_default pi) rows) = find (fun r => rowb v (rslots r)) rows.
Proof.
  intros H U. induction rows as [|r rows IH]; [reflexivity|]. inversion U as [|? ? Ur U']; subst.
  specialize (IH (fun r s k a => H r s k (or_intror a)) U'). cbn [filter find]. unfold is_default at 1.
  destruct (find_at pi (rslots r)) as [c|] eqn:F; [|cbn [find]; now rewrite IH].
  apply find_at_spec in F as [Fi Fp]; [|exact Ur]. unfold iscons. destruct (spat c) as [k|] eqn:S; cbn [negb]; [|cbn [find]; now rewrite IH].
  pose proof (H r c k (or_introl eq_refl) Fi Fp S) as Z0.
  assert (A : rowb v (rslots r) = false).
  { unfold rowb. destruct (forallb _ _) eqn:A; [|reflexivity]. rewrite forallb_forall in A. rewrite (A c Fi) in Z0. discriminate. }
  now rewrite A.
Qed.

Definition accs (rows : list row) (s : st) : Prop := forall r, In r rows -> nth_error (nodes s) (final r) = Some NAcc.
Lemma accs_ext rows a b : ext a b -> accs rows a -> accs rows b.
Proof.
  intros [[m E] _] H r Hr. specialize (H r Hr). assert (G : nth_error (map strip (nodes b)) (final r) = Some NAcc).
  { rewrite E, nth_error_app1, nth_error_map, H; [reflexivity|]. rewrite map_length. apply nth_error_Some. congruence. }
  rewrite nth_error_map in G. destruct (nth_error (nodes b) (final r)) as [[|]|]; cbn in G; congruence.
Qed.

Theorem compile_ok : forall fuel rows s d s' D, compile fuel rows s = Ok (d, s') -> wf (nodes s) -> accs rows s -> Forall (Inv D) rows ->
  ext s s' /\ wf (nodes s') /\ good s' d rows D.
Proof.
  induction fuel as [|fuel IH]; intros rows s d s' D H W A I; [discriminate|]. destruct rows as [|r0 rows]; [discriminate|]. rewrite compile_S in H.
  destruct (find iscons (rslots r0)) as [sl|] eqn:F.
  2: { injection H as <- <-. assert (X : ext s (mkst (nodes s) (final r0 :: refd s))) by (split; [exists []; cbn; now rewrite app_nil_r|intros x Hx; now right]).
       split; [exact X|]. split; [exact W|]. assert (A0 := A r0 (or_introl eq_refl)). split; cbn [nodes].
       - apply nth_error_Some. congruence.
       - intros v V _. assert (T : rowb v (rslots r0) = true).
         { unfold rowb. rewrite forallb_forall. intros x Hx. apply (find_none _ _ F) in Hx. unfold iscons in Hx. unfold holdsb. destruct (spat x); congruence. }
         split; [cbn [exec]; rewrite A0; unfold firsto; cbn [find]; now rewrite T|]. cbn [find]. rewrite T. intros r E. injection E as <-. now left. }
  remember (r0 :: rows) as all eqn:Eall.
  assert (I0 : Inv D r0) by (subst all; now inversion I).
  assert (HI : forall r, In r all -> Inv D r) by (now apply Forall_forall).
  assert (UA : allupath all) by (unfold allupath; rewrite Forall_forall; intros r Hr; eapply Inv_up; eauto).
  assert (ND : nd D sl = true) by (apply find_some in F as [F _]; destruct I0 as (R & _ & Q & _); rewrite Q in F; now apply filter_In in F).
  assert (NP : forall s, spath s = spath sl -> nd D s = true) by (intros x Hx; unfold nd in *; now rewrite Hx).
  assert (IP : forall k, Forall (Inv ((spath sl, k) :: D)) (filter_map (project k (spath sl)) all)).
  { intros k. rewrite Forall_forall. intros r Hr. apply in_filter_map in Hr as (x & Hx & E). eapply Inv_project; [exact (HI x Hx)|auto|exact E|]. intros R y _ _ Hy. now apply NP. }
  assert (AP : forall k s, accs all s -> accs (filter_map (project k (spath sl)) all) s).
  { intros k t At r Hr. apply in_filter_map in Hr as (x & Hx & E). apply project_shape in E. subst r. cbn. now apply At. }
  (* the edges *)
  assert (HE : forall cs s es s1, edges_loop fuel (spath sl) all cs s = Ok (es, s1) -> wf (nodes s) -> accs all s ->
     ext s s1 /\ wf (nodes s1) /\ (forall k d, In (k, d) es -> In k cs /\ good s1 d (filter_map (project k (spath sl)) all) ((spath sl, k) :: D)) /\
     (forall k, In k cs -> filter_map (project k (spath sl)) all <> [] -> exists d, In (k, d) es) /\ (NoDup cs -> NoDup (map fst es))).
  { induction cs as [|k cs IHc]; intros t es t1 E Wt At; cbn in E.
    - injection E as <- <-. split; [apply ext_refl|]. split; [exact Wt|]. split; [intros ? ? []|]. split; [intros ? []|constructor].
    - fold (edges_loop fuel (spath sl) all) in E. destruct (filter_map (project k (spath sl)) all) as [|p0 ps] eqn:Ep.
      + destruct (IHc _ _ _ E Wt At) as (X1 & X2 & X3 & X4 & X5). split; [exact X1|]. split; [exact X2|]. split; [|split].
        * intros j e Hj. destruct (X3 j e Hj). split; [now right|assumption].
        * intros j [<-|Hj] Hn; [congruence|now apply X4].
        * intros N. inversion N; subst. auto.
      + destruct (compile fuel (p0 :: ps) t) as [[e t']| | | | |] eqn:Ec; try discriminate.
        destruct (edges_loop fuel (spath sl) all cs t') as [[es' t2]| | | | |] eqn:El; try discriminate. injection E as <- <-.
        rewrite <- Ep in Ec. destruct (IH _ _ _ _ ((spath sl, k) :: D) Ec Wt (AP k t At) (IP k)) as (X & Wt' & G).
        destruct (IHc _ _ _ El Wt' (accs_ext _ _ _ X At)) as (X1 & X2 & X3 & X4 & X5).
        split; [eapply ext_trans; eauto|]. split; [exact X2|]. split; [|split].
        * intros j e' [Hj|Hj].
          -- injection Hj as <- <-. split; [now left|]. eapply good_mono; [exact Wt'|exact X1|exact G].
          -- destruct (X3 j e' Hj). split; [now right|assumption].
        * intros j [<-|Hj] Hn; [exists e; now left|]. destruct (X4 j Hj Hn) as (e' & He'). exists e'. now right.
        * intros N. inversion N; subst. cbn. constructor; [|auto]. intros C. apply in_map_iff in C as ([j e'] & Q & C). cbn in Q. subst j. apply X3 in C as [C _]. contradiction. }
  destruct (edges_loop fuel (spath sl) all (cset (spath sl) all) s) as [[es s1]| | | | |] eqn:El; try discriminate.
  destruct (HE _ _ _ _ El W A) as (X1 & W1 & E1 & E2 & E3). clear HE.
  (* the value at the chosen place, for any value that gets here *)
  assert (HV : forall v, vok v -> Forall (InvV v D) all -> exists k, loadv (sload sl) v = Some (VLit k) /\ inr sl k).
  { intros v V HInv. destruct I0 as (R & E0 & F0 & _). pose proof F as F'. rewrite F0 in F'. destruct (first_cons_split _ _ _ F') as (pre & post & -> & I1 & N1 & P1).
    apply (V _ (nth_error_In _ _ E0) pre sl post eq_refl); [|exact I1]. rewrite Forall_forall. intros x Hx.
    destruct (iscons x) eqn:Ix; [|unfold holds; unfold iscons in Ix; now destruct (spat x)].
    rewrite Forall_forall in HInv. apply (HInv r0 ltac:(subst all; now left) _ x E0); [apply in_or_app; now left|now apply P1]. }
  assert (SL : forall r x, In r all -> In x (rslots r) -> spath x = spath sl -> iscons x = true -> sload x = sload sl /\ styp x = styp sl).
  { intros r x Hr Hx Hp Hi. eapply same_load; [exact I0|exact (HI r Hr)|exact F|exact Hx|exact Hp|exact Hi]. }
  (* what a node with these edges does *)
  assert (EX : forall t i any nc, wf (nodes t) -> ext s1 t -> nth_error (nodes t) i = Some (NTest (sload sl) es any nc) ->
     (match any with None => filter (is_default (spath sl)) all = [] | Some a => good t a (filter (is_default (spath sl)) all) D end) -> good t i all D).
  { intros t i any nc Wt Xt Ni HA. split; [apply nth_error_Some; congruence|]. intros v V HInv. destruct (HV v V HInv) as (k & Lk & _).
    pose proof (Wt i _ Ni) as [Wn1 Wn2]. cbn [exec]. rewrite Ni, Lk.
    destruct (find (fun e => fst e =? k) es) as [[k' e]|] eqn:Fe.
    - apply find_some in Fe as [Fe Q]. cbn in Q. apply Z.eqb_eq in Q. subst k'. cbn [snd]. specialize (Wn1 _ Fe). cbn in Wn1.
      rewrite (exec_fuel (nodes t) v Wt e i Wn1). destruct (E1 _ _ Fe) as [Hk G]. apply (good_mono _ t) in G; [|exact W1|exact Xt].
      destruct G as [_ G]. specialize (G v V).
      assert (HP : Forall (InvV v ((spath sl, k) :: D)) (filter_map (project k (spath sl)) all)).
      { rewrite Forall_forall. intros r Hr. apply in_filter_map in Hr as (x & Hx & Ex). pose proof (project_shape _ _ _ _ Ex). subst r. intros R y ER Hy Ny. cbn in ER.
        apply nd_false in Ny as (j & [Ny|Ny]).
        - injection Ny as Hp _. unfold holds. destruct (spat y) as [a|] eqn:Sy; [|exact Logic.I].
          destruct (HI x Hx) as (R' & ER' & FR & KR). assert (R' = R) by congruence. subst R'.
          assert (Hy' : In y (rslots x)) by (rewrite FR; apply filter_In; split; [exact Hy|apply NP; congruence]).
          destruct (SL x y Hx Hy' (eq_sym Hp)) as [-> _]; [unfold iscons; now rewrite Sy|]. rewrite Lk. f_equal. f_equal.
          unfold project in Ex. assert (FA : find_at (spath sl) (rslots x) = Some y).
          { apply find_at_spec; [|now split]. eapply Inv_up; exact (HI x Hx). }
          rewrite FA, Sy in Ex. destruct (a =? k) eqn:Q; [apply Z.eqb_eq in Q; congruence|discriminate].
        - rewrite Forall_forall in HInv. apply (HInv x Hx R y ER Hy). apply nd_false. now exists j. }
      destruct (G HP) as [G1 G2].
      pose proof (project_find v k (spath sl) all) as PF.
      assert (C1 : forall r x, In r all -> In x (rslots r) -> spath x = spath sl -> spat x = Some k -> loadv (sload x) v = Some (VLit k)).
      { intros r x Hr Hx Hp Sx. destruct (SL r x Hr Hx Hp) as [-> _]; [unfold iscons; now rewrite Sx|exact Lk]. }
      assert (C2 : forall r x j, In r all -> In x (rslots r) -> spath x = spath sl -> spat x = Some j -> j <> k -> holdsb v x = false).
      { intros r x j Hr Hx Hp Sx Nj. unfold holdsb. rewrite Sx. destruct (SL r x Hr Hx Hp) as [-> _]; [unfold iscons; now rewrite Sx|]. rewrite Lk. apply Z.eqb_neq. congruence. }
      specialize (PF C1 C2 UA). unfold firsto in *. destruct (find _ all) as [r|] eqn:Fa.
      + rewrite PF in G1, G2. cbn [final] in G1. split; [exact G1|]. intros r' Er. injection Er as <-. specialize (G2 _ eq_refl). exact G2.
      + rewrite PF in G1. split; [exact G1|]. intros ? C; discriminate.
    - assert (NK : forall r x j, In r all -> In x (rslots r) -> spath x = spath sl -> spat x = Some j -> holdsb v x = false).
      { intros r x j Hr Hx Hp Sx. unfold holdsb. rewrite Sx. destruct (SL r x Hr Hx Hp) as [-> _]; [unfold iscons; now rewrite Sx|]. rewrite Lk. apply Z.eqb_neq. intros <-.
        destruct (E2 k) as (e & He).
        - apply cset_in. exists r, x. tauto.
        - intros C. assert (P : project k (spath sl) r = Some (mkrow (final r) (filter (fun s => negb (at_path (spath sl) s)) (rslots r)))).
          { unfold project. assert (FA : find_at (spath sl) (rslots r) = Some x) by (apply find_at_spec; [eapply Inv_up; exact (HI r Hr)|now split]). now rewrite FA, Sx, Z.eqb_refl. }
          assert (Hin : In (mkrow (final r) (filter (fun s => negb (at_path (spath sl) s)) (rslots r))) (filter_map (project k (spath sl)) all)) by (apply in_filter_map; exists r; now split).
          rewrite C in Hin. exact Hin.
        - apply (find_none _ _ Fe) in He. cbn in He. now rewrite Z.eqb_refl in He. }
      pose proof (default_find v (spath sl) all NK UA) as DF.
      destruct any as [a|].
      + specialize (Wn2 a eq_refl). rewrite (exec_fuel (nodes t) v Wt a i Wn2). destruct HA as [_ HA]. specialize (HA v V).
        destruct HA as [G1 G2].
        { rewrite Forall_forall in *. intros r Hr. apply filter_In in Hr. now apply HInv. }
        unfold firsto in *. rewrite DF in G1, G2. now split.
      + rewrite HA in DF. cbn in DF. unfold firsto. rewrite <- DF. split; [reflexivity|intros ? C; discriminate]. }
  assert (C1 : forall e, In e es -> (snd e < length (nodes s1))%nat) by (intros [k e] He; destruct (E1 _ _ He) as [_ [L _]]; exact L).
  destruct (filter (is_default (spath sl)) all) as [|d0 ds] eqn:Ed.
  - destruct (mknode_spec _ _ _ _ _ _ _ H W1 C1 ltac:(intros ? C; discriminate)) as (X & W' & Rf & N & _).
    split; [eapply ext_trans; eauto|]. split; [exact W'|]. eapply EX; [exact W'|exact X|exact N|reflexivity].
  - destruct (compile fuel (d0 :: ds) s1) as [[a s2]| | | | |] eqn:Ec; try discriminate.
    destruct (IH _ _ _ _ D Ec W1) as (X2 & W2 & G).
    + rewrite <- Ed. intros r Hr. apply filter_In in Hr as [Hr _]. exact (accs_ext _ _ _ X1 A r Hr).
    + rewrite <- Ed. rewrite Forall_forall. intros r Hr. apply filter_In in Hr as [Hr _]. now apply HI.
    + destruct (mknode_spec _ _ _ _ _ _ _ H W2) as (X & W' & Rf & N & _).
      * intros e He. pose proof (ext_len _ _ X2). specialize (C1 e He). lia.
      * intros b Hb. injection Hb as <-. apply G.
      * split; [eapply ext_trans; [exact X1|eapply ext_trans; [exact X2|exact X]]|]. split; [exact W'|].
        eapply EX; [exact W'|eapply ext_trans; [exact X2|exact X]|exact N|]. cbn. eapply good_mono; [exact W2|exact X|exact G].
Qed.
End Rows.
