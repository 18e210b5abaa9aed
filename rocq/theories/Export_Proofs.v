(* Tagging reaches everything the use file mentions. *)
From Verif Require Import Base Word CPack_Model CPack_Proofs Use_Model Use_Spec Use_Proofs Export_Model Export_Spec.
Open Scope Z_scope.

Ltac splits := repeat match goal with H : _ && _ = true |- _ => apply andb_true_iff in H; destruct H end.

Lemma mark_eqb_eq a b : mark_eqb a b = true <-> a = b.
Proof.
  destruct a, b; cbn; split; intros H; try discriminate H;
    try (apply Z.eqb_eq in H; congruence); try (apply Nat.eqb_eq in H; congruence);
    injection H as <-; try apply Z.eqb_refl; apply Nat.eqb_refl.
Qed.
Lemma marked_in m s : existsb (mark_eqb m) s = true <-> In m s.
Proof.
  rewrite existsb_exists. split.
  - intros (x & Hx & E). apply mark_eqb_eq in E. subst. auto.
  - intros H. exists m. split; auto. apply mark_eqb_eq. auto.
Qed.
Lemma ref_eqb_eq a b : ref_eqb a b = true -> a = b.
Proof. destruct a, b; cbn; intros H; try discriminate H; auto; apply Z.eqb_eq in H; congruence. Qed.
Lemma tags_in ws r : tags ws r = true -> In (WT r) ws.
Proof.
  unfold tags. rewrite existsb_exists. intros (w & Hw & E). destruct w; try discriminate E. apply ref_eqb_eq in E. subst. auto.
Qed.

(* --- the marking loop --- *)
Definition settled (p : prog) (s : list mark) (w : work) : Prop := enter p s w = None.
Definition succ (p : prog) (m : mark) : list work :=
  match m with
  | MT t => match tyof p t with Some y => tywork y | None => [] end
  | MR u => match trof p u with Some r => trwork p r | None => [] end
  | MD d => match dclof p d with Some g => dclwork p true (d_trait g) (d_sym g) | None => [] end
  end.

Lemma settled_mono p s m w : settled p s w -> settled p (m :: s) w.
Proof.
  unfold settled, enter. destruct w as [[|k|t]|u|d]; auto; cbn [existsb].
  - destruct (tyof p t); auto. destruct (mark_eqb (MT t) m); auto.
  - destruct (trof p u); auto. destruct (mark_eqb (MR u) m); cbn [orb negb]; [|auto]. rewrite andb_false_r. auto.
  - destruct (dclof p d); auto. destruct (mark_eqb (MD d) m); cbn [orb negb]; [|auto]. rewrite andb_false_r. auto.
Qed.
Lemma enter_succ p s w m ws : enter p s w = Some (m, ws) -> ws = succ p m /\ ~ In m s /\ settled p (m :: s) w.
Proof.
  unfold enter, settled, enter. destruct w as [[|k|t]|u|d]; intros E; try discriminate E.
  - destruct (tyof p t) eqn:T; [|discriminate E]. destruct (existsb (mark_eqb (MT t)) s) eqn:X; [discriminate E|].
    injection E as <- <-. cbn [succ existsb]. rewrite T. rewrite (proj2 (mark_eqb_eq _ _) eq_refl). cbn. repeat split; auto.
    intros H. apply marked_in in H. congruence.
  - destruct (trof p u) eqn:T; [|discriminate E]. destruct (x_vis g =? Visintern) eqn:V; [|discriminate E].
    destruct (existsb (mark_eqb (MR u)) s) eqn:X; cbn in E; [discriminate E|].
    injection E as <- <-. cbn [succ existsb]. rewrite T. rewrite (proj2 (mark_eqb_eq _ _) eq_refl). cbn. repeat split; auto.
    intros H. apply marked_in in H. congruence.
  - destruct (dclof p d) eqn:T; [|discriminate E]. destruct (svis (d_sym g) =? Visintern) eqn:V; [|discriminate E].
    destruct (existsb (mark_eqb (MD d)) s) eqn:X; cbn in E; [discriminate E|].
    injection E as <- <-. cbn [succ existsb]. rewrite T. rewrite (proj2 (mark_eqb_eq _ _) eq_refl). cbn. repeat split; auto.
    intros H. apply marked_in in H. congruence.
Qed.

Lemma run_spec p f ws s s' (R : list work) :
  run p f ws s = Some s' ->
  (forall m, In m s -> forall w, In w (succ p m) -> settled p s w \/ In w ws) ->
  (forall w, In w R -> settled p s w \/ In w ws) ->
  (forall m, In m s' -> forall w, In w (succ p m) -> settled p s' w) /\ (forall w, In w R -> settled p s' w).
Proof.
  revert ws s. induction f as [|f IH]; cbn [run]; intros ws s E Hm HR; [discriminate E|].
  destruct ws as [|w ws].
  - injection E as <-. split.
    + intros m Im w Iw. destruct (Hm m Im w Iw) as [|[]]; auto.
    + intros w Iw. destruct (HR w Iw) as [|[]]; auto.
  - destruct (enter p s w) as [[m ws']|] eqn:En.
    + destruct (enter_succ _ _ _ _ _ En) as (-> & _ & Sw). apply (IH _ _ E).
      * intros m' [<-|Im] w' Iw.
        -- right. apply in_or_app; auto.
        -- destruct (Hm m' Im w' Iw) as [H|[<-|H]]; [left; apply settled_mono; auto|left; auto|right; apply in_or_app; auto].
      * intros w' Iw. destruct (HR w' Iw) as [H|[<-|H]]; [left; apply settled_mono; auto|left; auto|right; apply in_or_app; auto].
    + apply (IH _ _ E).
      * intros m' Im w' Iw. destruct (Hm m' Im w' Iw) as [H|[<-|H]]; auto.
      * intros w' Iw. destruct (HR w' Iw) as [H|[<-|H]]; auto.
Qed.

(* the loop ends: what is not marked becomes less *)
Definition universe (p : prog) : list mark :=
  map (fun i => MT (Z.of_nat i)) (seq 0 (length (p_types p))) ++ map (fun i => MR (Z.of_nat i)) (seq 0 (length (p_traits p))) ++
  map MD (seq 0 (length (p_decls p))).
Lemma tyof_some p t y : tyof p t = Some y -> 0 <= t /\ nth_error (p_types p) (Z.to_nat t) = Some y.
Proof. unfold tyof. destruct (Z.ltb_spec t 0); [discriminate|]. auto. Qed.
Lemma trof_some p t y : trof p t = Some y -> 0 <= t /\ nth_error (p_traits p) (Z.to_nat t) = Some y.
Proof. unfold trof. destruct (Z.ltb_spec t 0); [discriminate|]. auto. Qed.
Lemma nth_error_lt {A} (l : list A) n x : nth_error l n = Some x -> (n < length l)%nat.
Proof. intros H. apply nth_error_Some. congruence. Qed.

Lemma enter_universe p s w m ws : enter p s w = Some (m, ws) -> In m (universe p).
Proof.
  unfold enter, universe. rewrite !in_app_iff, !in_map_iff. destruct w as [[|k|t]|u|d]; intros E; try discriminate E.
  - destruct (tyof p t) eqn:T; [|discriminate E]. destruct (existsb _ s); [discriminate E|]. injection E as <- <-.
    apply tyof_some in T as [T0 T]. left. exists (Z.to_nat t). split; [f_equal; lia|].
    apply in_seq. apply nth_error_lt in T. lia.
  - destruct (trof p u) eqn:T; [|discriminate E]. destruct (_ && _); [|discriminate E]. injection E as <- <-.
    apply trof_some in T as [T0 T]. right. left. exists (Z.to_nat u). split; [f_equal; lia|].
    apply in_seq. apply nth_error_lt in T. lia.
  - destruct (dclof p d) eqn:T; [|discriminate E]. destruct (_ && _); [|discriminate E]. injection E as <- <-.
    right. right. exists d. split; auto. apply in_seq. apply nth_error_lt in T. lia.
Qed.

Definition todo (p : prog) (s : list mark) : nat := length (filter (fun m => negb (existsb (mark_eqb m) s)) (universe p)).
Lemma filter_shrink {A} (f g : A -> bool) l x :
  (forall y, g y = true -> f y = true) -> In x l -> f x = true -> g x = false -> (length (filter g l) < length (filter f l))%nat.
Proof.
  intros S. assert (LE : forall l, (length (filter g l) <= length (filter f l))%nat).
  { induction l0 as [|a l0 IH]; cbn; auto. destruct (g a) eqn:G; [rewrite (S _ G); cbn; lia|]. destruct (f a); cbn; lia. }
  induction l as [|a l IH]; cbn [In filter]; intros I F G; [contradiction|]. destruct I as [<-|I].
  - rewrite F, G. cbn. specialize (LE l). lia.
  - specialize (IH I F G). destruct (g a) eqn:E; [rewrite (S _ E); cbn; lia|]. destruct (f a); cbn; lia.
Qed.
Lemma todo_shrink p s w m ws : enter p s w = Some (m, ws) -> (todo p (m :: s) < todo p s)%nat.
Proof.
  intros E. unfold todo. apply filter_shrink with m.
  - intros y H. cbn [existsb] in H. rewrite negb_orb in H. apply andb_true_iff in H. tauto.
  - eapply enter_universe; eauto.
  - apply negb_true_iff. destruct (existsb (mark_eqb m) s) eqn:X; auto. apply marked_in in X.
    apply enter_succ in E as (_ & N & _). contradiction.
  - cbn [existsb]. rewrite (proj2 (mark_eqb_eq m m) eq_refl). reflexivity.
Qed.
Lemma run_ends p ws s : exists f s', run p f ws s = Some s'.
Proof.
  remember (todo p s) as n eqn:En. revert ws s En. induction n as [n IHn] using lt_wf_ind. intros ws s ->.
  induction ws as [|w ws IHw].
  - exists 1%nat, s. reflexivity.
  - destruct (enter p s w) as [[m ws']|] eqn:E.
    + destruct (IHn _ (todo_shrink _ _ _ _ _ E) (ws' ++ ws) (m :: s) eq_refl) as (f & s' & H).
      exists (S f), s'. cbn [run]. rewrite E. auto.
    + destruct IHw as (f & s' & H). exists (S f), s'. cbn [run]. rewrite E. auto.
Qed.

(* --- what is written is tagged --- *)
Lemma name_refs n : isname n = true -> refs_node n = [].
Proof. destruct n; cbn; intros H; try discriminate H; auto. Qed.

Lemma trivial_or ws l : forallb (fun r => trivial r || tags ws r) l = true -> forall r, In r l -> trivial r = true \/ In (WT r) ws.
Proof.
  intros H r Hr. rewrite forallb_forall in H. specialize (H r Hr). apply orb_true_iff in H as [H|H]; auto. right. apply tags_in; auto.
Qed.

Lemma covers p f : forall n ing, (length (pickle n) < f)%nat -> covered p ing n = true ->
  forall r, In r (refs_node n) -> trivial r = true \/ In (WT r) (nodework p ing n).
Proof.
  induction f as [|f IH]; intros n ing Hl C r Hr; [lia|].
  assert (L : forall l, (length (wlist pickle l) < f)%nat -> forallb (covered p ing) l = true ->
     In r (flat_map refs_node l) -> trivial r = true \/ In (WT r) (flat_map (nodework p ing) l)).
  { intros l Hll Cl Hin. apply in_flat_map in Hin as (x & Hx & Hin). rewrite forallb_forall in Cl.
    destruct (IH x ing) with r as [H|H]; auto.
    - pose proof (len_wlist pickle l x Hx). lia.
    - right. apply in_flat_map. eauto. }
  destruct n as [|line op did ty param c idx args|line ns name|line l name|line ty nelt v|line a b c d|line a b c|line v ms
                  |line q b|line a b c|line st ss|line nm ty c g e rr q init|line ty st args body|line tn tr ty aux ds];
    cbn [covered] in C; cbn [refs_node refs_sym refs_stab] in Hr; try contradiction; try discriminate C;
    cbn [pickle wrlit wrsym wrstab] in Hl; rewrite ?app_length in Hl; cbn [length wrbyte] in Hl; splits.
  - cbn [nodework]. rewrite !in_app_iff. cbn [In]. destruct Hr as [<-|[<-|Hr]]; [tauto|tauto|]. apply in_app_or in Hr as [Hr|Hr].
    + destruct (IH idx ing) with r as [X|X]; auto. lia.
    + destruct (L args) as [X|X]; auto; [lia|]. tauto.
  - cbn [nodework]. destruct Hr as [<-|Hr]; [right; left; auto|]. destruct v; try contradiction.
    destruct (IH f0 ing) with r as [X|X]; auto; [cbn [wrlit] in Hl; lia|]. right. right. auto.
  - cbn [nodework]. rewrite !in_app_iff in *. repeat match goal with X : _ \/ _ |- _ => destruct X as [X|X] end.
    + destruct (IH a ing) with r as [X|X]; auto; lia.
    + destruct (IH b ing) with r as [X|X]; auto; lia.
    + destruct (IH c ing) with r as [X|X]; auto; try lia; tauto.
    + destruct (IH d ing) with r as [X|X]; auto; try lia; tauto.
  - cbn [nodework]. rewrite !in_app_iff in *. repeat match goal with X : _ \/ _ |- _ => destruct X as [X|X] end.
    + destruct (IH a ing) with r as [X|X]; auto; lia.
    + destruct (IH b ing) with r as [X|X]; auto; lia.
    + destruct (IH c ing) with r as [X|X]; auto; try lia; tauto.
  - cbn [nodework]. rewrite !in_app_iff in *. destruct Hr as [Hr|Hr].
    + destruct (IH v ing) with r as [X|X]; auto; lia.
    + destruct (L ms) as [X|X]; auto; lia.
  - cbn [nodework]. rewrite !in_app_iff in *. destruct Hr as [Hr|Hr].
    + destruct (IH q ing) with r as [X|X]; auto; lia.
    + destruct (IH b ing) with r as [X|X]; auto; lia.
  - cbn [nodework]. rewrite !in_app_iff in *. repeat match goal with X : _ \/ _ |- _ => destruct X as [X|X] end.
    + destruct (IH a ing) with r as [X|X]; auto; lia.
    + destruct (IH b ing) with r as [X|X]; auto; lia.
    + destruct (IH c ing) with r as [X|X]; auto; try lia; tauto.
  - apply in_app_or in Hr as [Hr|Hr].
    + eapply trivial_or; eauto.
    + cbn [nodework]. destruct (L ss) as [X|X]; auto; lia.
  - rewrite (name_refs nm) in Hr by auto. cbn [app] in Hr. cbn [nodework]. destruct Hr as [<-|Hr]; [right; left; auto|].
    match goal with X : isnull init || _ = true |- _ => apply orb_true_iff in X as [X|X] end.
    + destruct init; try discriminate H0. contradiction.
    + splits. match goal with X : isexportval _ _ _ _ || _ = true |- _ => rewrite X end.
      destruct (IH init (negb (g =? 0))) with r as [X|X]; auto; [lia|]. right. right. auto.
  - destruct Hr as [<-|Hr]; [right; left; auto|]. rewrite !in_app_iff in Hr. destruct Hr as [Hr|[Hr|Hr]].
    + eapply trivial_or; eauto.
    + cbn [nodework]. destruct (L args) as [X|X]; auto; [lia|]. right. right. apply in_or_app; auto.
    + cbn [nodework]. destruct (IH body ing) with r as [X|X]; auto; [lia|]. right. right. apply in_or_app; auto.
Qed.

Lemma tycovers t : covered_ty t = true -> forall r, In r (refs_ty t) -> trivial r = true \/ In (WT r) (tywork t).
Proof.
  unfold covered_ty, refs_ty, tywork. intros C r Hr. splits.
  match goal with X : forallb _ (t_spec t) = true |- _ => rename X into Cs end. rewrite forallb_forall in Cs.
  apply in_app_or in Hr as [Hr|[<-|Hr]]; [| |].
  - apply in_flat_map in Hr as (sp & Hs & Hr). apply in_app_or in Hr as [Hr|Hr].
    + apply in_flat_map in Hr as (n & Hn & Hr). specialize (Cs sp Hs). rewrite forallb_forall in Cs.
      rewrite name_refs in Hr by auto. contradiction.
    + right. right. apply in_or_app. right. apply in_or_app. left. apply in_flat_map. exists sp. split; auto.
      destruct Hr as [<-|[<-|[]]]; cbn; auto.
  - right. left. auto.
  - assert (G : forall ws, trivial r = true \/ In (WT r) (map WT (subs_of (t_body t))) \/ In (WT r) ws ->
      trivial r = true \/ In (WT r) (WT (t_seqaux t) :: map WT (subs_of (t_body t)) ++
        flat_map (fun s => [WT (ts_param s); WT (ts_aux s)]) (t_spec t) ++ ws)).
    { intros ws K. cbn [In]. rewrite !in_app_iff. tauto. }
    apply G. clear G. destruct (t_body t) as [nm|need nm|ds|us|s sz|s|nm args s|nm ps s|k ss]; cbn [subs_of map].
    + rewrite name_refs in Hr by auto. contradiction.
    + contradiction.
    + apply in_flat_map in Hr as (d & Hd & Hr). match goal with X : forallb _ ds = true |- _ => rewrite forallb_forall in X; specialize (X _ Hd) end.
      match goal with X : member_ok d = true |- _ => rename X into MK end.
      destruct d as [| | | | | | | | | | |line dn ty c g e rr q init| |]; try discriminate MK. cbn in MK.
      apply andb_true_iff in MK as [MK1 MK2]. cbn [refs_node] in Hr.
      rewrite (name_refs dn) in Hr by auto. destruct init; try discriminate MK2. cbn in Hr. destruct Hr as [<-|[]].
      right. right. apply in_map_iff. exists (Ndecl line dn ty c g e rr q Nnull). split; auto.
    + apply in_flat_map in Hr as (d & Hd & Hr). match goal with X : forallb _ us = true |- _ => rewrite forallb_forall in X; specialize (X _ Hd) end.
      rewrite (name_refs (u_name d)) in Hr by auto. destruct Hr as [<-|[]]. right. right. apply in_map_iff. eauto.
    + destruct Hr as [<-|Hr]; [right; left; left; auto|]. left. match goal with X : forallb trivial _ = true |- _ => rewrite forallb_forall in X; auto end.
    + destruct Hr as [<-|[]]. right; left; left; auto.
    + rewrite (name_refs nm) in Hr by auto. cbn [app] in Hr. apply in_app_or in Hr as [Hr|[<-|[]]]; [|right; left; left; auto].
      right. right. apply in_map; auto.
    + rewrite (name_refs nm) in Hr by auto. cbn [app] in Hr. apply in_app_or in Hr as [Hr|[<-|[]]]; [|right; left; left; auto].
      right. right. apply in_map; auto.
    + right. left. apply in_map; auto.
Qed.

Lemma symcovers p ing trait v y : covered_sym p trait y = true ->
  forall r, In r (refs_sym (sset v (isexportval p (sgeneric y) trait (styp y)) y)) ->
  trivial r = true \/ In (WT r) (dclwork p ing trait y).
Proof.
  destruct y as [line nm ty v0 c g e q rr x i f init]. unfold covered_sym. cbn [sname sval sgeneric styp sset]. intros C r Hr.
  splits. cbn [refs_sym refs_node] in Hr.
  change (In r (refs_node nm ++ ty :: (if (if isexportval p g trait ty then 1 else 0) =? 0 then [] else refs_node init))) in Hr.
  rewrite (name_refs nm) in Hr by auto. cbn [app] in Hr. cbn [dclwork]. destruct Hr as [<-|Hr]; [right; left; auto|].
  destruct (isexportval p g trait ty) eqn:X; cbn [orb negb] in *; [|contradiction].
  change (1 =? 0) with false in Hr. cbv iota in Hr.
  destruct (covers p (S (length (pickle init))) init (negb (g =? 0))) with r as [K|K]; auto. right. right. auto.
Qed.
Lemma symwork_dcl p y : symwork p y = dclwork p false false y.
Proof. destruct y. cbn [symwork dclwork]. rewrite orb_false_r. reflexivity. Qed.

Lemma in_number {A} (l : list A) k e : In e (number k l) <-> k <= fst e /\ nth_error l (Z.to_nat (fst e - k)) = Some (snd e).
Proof.
  revert k. induction l as [|x l IH]; intros k; cbn [number In].
  - split; [contradiction|]. intros [_ H]. destruct (Z.to_nat _); discriminate H.
  - rewrite IH. split.
    + intros [<-|[H1 H2]]; cbn [fst snd].
      * rewrite Z.sub_diag. split; [lia|reflexivity].
      * split; [lia|]. replace (Z.to_nat (fst e - k)) with (S (Z.to_nat (fst e - (k + 1)))) by lia. exact H2.
    + intros [H1 H2]. destruct (Z.eq_dec (fst e) k) as [E|E].
      * left. rewrite E, Z.sub_diag in H2. cbn in H2. injection H2 as ->. destruct e; cbn in *; congruence.
      * right. split; [lia|]. replace (Z.to_nat (fst e - k)) with (S (Z.to_nat (fst e - (k + 1)))) in H2 by lia. exact H2.
Qed.
Lemma in_number_ty p e : In e (number 0 (p_types p)) <-> tyof p (fst e) = Some (snd e).
Proof.
  rewrite in_number, Z.sub_0_r. unfold tyof. destruct (Z.ltb_spec (fst e) 0); split; intros K; try lia; try discriminate K; tauto.
Qed.
Lemma in_number_tr p e : In e (number 0 (p_traits p)) <-> trof p (fst e) = Some (snd e).
Proof.
  rewrite in_number, Z.sub_0_r. unfold trof. destruct (Z.ltb_spec (fst e) 0); split; intros K; try lia; try discriminate K; tauto.
Qed.

Section Closed.
Variable p : prog.
Variable s : list mark.
Hypothesis Con : consistent p = true.
Hypothesis Cov : covered_prog p = true.
Hypothesis Sm : forall m, In m s -> forall w, In w (succ p m) -> settled p s w.
Hypothesis Sr : forall w, In w (roots p) -> settled p s w.

Lemma con_ty t y : tyof p t = Some y ->
  (t_vis y = 0 \/ t_vis y = 1 \/ t_vis y = 3) /\ (forall w, In w (tywork y) -> valid_work p w = true) /\
  (t_vis y = 1 -> In t (p_named p)) /\ covered_ty y = true.
Proof.
  intros T. unfold consistent in Con. unfold covered_prog in Cov. splits.
  match goal with X : forallb _ (number 0 (p_types p)) = true |- _ => rewrite forallb_forall in X; specialize (X (t, y)) end.
  cbn [fst snd] in *. match goal with X : In _ _ -> _ |- _ => rename X into K end.
  specialize (K (proj2 (in_number_ty p (t, y)) T)). splits.
  match goal with X : forallb covered_ty _ = true |- _ => rewrite forallb_forall in X; rename X into CT end.
  repeat split.
  - match goal with X : _ || _ || _ = true |- _ => rewrite !orb_true_iff, !Z.eqb_eq in X end. tauto.
  - match goal with X : forallb (valid_work p) (tywork y) = true |- _ => rewrite forallb_forall in X; auto end.
  - intros V. match goal with X : negb _ || _ = true |- _ => rewrite V in X; cbn in X; apply existsb_exists in X as (z & Hz & E) end.
    apply Z.eqb_eq in E. subst. auto.
  - apply CT. apply tyof_some in T as [_ T]. eapply nth_error_In; eauto.
Qed.
Lemma con_tr u r : trof p u = Some r ->
  (x_vis r = 0 \/ x_vis r = 1) /\ (forall w, In w (trwork p r) -> valid_work p w = true) /\
  isname (x_name r) = true /\ (forall y, In y (x_proto r) -> covered_sym p true y = true).
Proof.
  intros T. apply trof_some in T as [_ T]. apply nth_error_In in T. unfold consistent in Con. unfold covered_prog in Cov. splits.
  repeat match goal with X : forallb _ (p_traits p) = true |- _ => rewrite forallb_forall in X; specialize (X _ T) end. splits.
  repeat split; auto.
  - match goal with X : (x_vis r =? 0) || _ = true |- _ => rewrite !orb_true_iff, !Z.eqb_eq in X end. tauto.
  - match goal with X : forallb (valid_work p) (trwork p r) = true |- _ => rewrite forallb_forall in X; auto end.
  - match goal with X : forallb (covered_sym p true) _ = true |- _ => rewrite forallb_forall in X; auto end.
Qed.
Lemma con_dcl g : In g (p_decls p) ->
  (svis (d_sym g) = 0 \/ svis (d_sym g) = 1 \/ svis (d_sym g) = 3) /\
  (forall w, In w (dclwork p true (d_trait g) (d_sym g)) -> valid_work p w = true) /\
  covered_sym p (d_trait g) (d_sym g) = true.
Proof.
  intros T. unfold consistent in Con. unfold covered_prog in Cov. splits.
  repeat match goal with X : forallb _ (p_decls p) = true |- _ => rewrite forallb_forall in X; specialize (X _ T) end. splits.
  repeat split; auto.
  - match goal with X : _ || _ || _ = true |- _ => rewrite !orb_true_iff, !Z.eqb_eq in X end. tauto.
  - match goal with X : forallb (valid_work p) _ = true |- _ => rewrite forallb_forall in X; auto end.
Qed.

(* a reference that is tagged has an entry *)
Lemma settled_type t : valid_ref p (Rtid t) = true -> settled p s (WT (Rtid t)) ->
  In (MT t) s /\ defines_type (entries p s) t = true.
Proof.
  intros V S. unfold settled, enter in S. cbn [valid_ref] in V. splits. destruct (tyof p t) as [y|] eqn:T; [|discriminate H0].
  destruct (existsb (mark_eqb (MT t)) s) eqn:X; [|discriminate S]. split; [apply marked_in; auto|].
  unfold defines_type. apply existsb_exists.
  exists (Itype t (setvis (newvis s (MT t) (t_vis y)) y)). split; [|apply Z.eqb_refl].
  unfold entries. apply in_or_app. left. unfold wtypes. apply in_flat_map. exists (t, y). split; [apply in_number_ty; auto|].
  cbn [fst snd]. assert (W : written (newvis s (MT t) (t_vis y)) = true).
  { unfold newvis. rewrite X. rewrite orb_true_iff, !Z.eqb_eq in H0. destruct H0 as [-> | ->]; reflexivity. }
  rewrite W. left. auto.
Qed.
Lemma settled_trait u : valid_work p (WR u) = true -> settled p s (WR u) -> defines_trait (entries p s) u = true.
Proof.
  intros V S. unfold settled, enter in S. cbn [valid_work] in V. splits. destruct (trof p u) as [r|] eqn:T; [|discriminate H0].
  unfold defines_trait. destruct (u <? Ntraits) eqn:B; [reflexivity|]. cbn [orb]. apply existsb_exists.
  assert (W : written (newvis s (MR u) (x_vis r)) = true).
  { unfold newvis. rewrite orb_true_iff, !Z.eqb_eq in H0. destruct H0 as [E|E]; rewrite E in *; [|reflexivity].
    change (0 =? Visintern) with true in *. cbn [andb] in *. destruct (existsb (mark_eqb (MR u)) s); [reflexivity|discriminate S]. }
  eexists. split.
  - unfold entries. apply in_or_app. right. apply in_or_app. left. unfold wtraits. apply in_flat_map. exists (u, r).
    split; [apply in_number_tr; auto|]. cbn [fst snd]. rewrite B, W. left. reflexivity.
  - cbn. apply Z.eqb_refl.
Qed.

(* the works that a written thing depends on are done *)
Lemma marked_ty t y : In (MT t) s -> tyof p t = Some y -> forall w, In w (tywork y) -> settled p s w /\ valid_work p w = true.
Proof.
  intros M T w Hw. split; [apply (Sm _ M); cbn [succ]; rewrite T; auto|]. destruct (con_ty t y T) as (_ & V & _). auto.
Qed.
Lemma written_ty t y : tyof p t = Some y -> written (newvis s (MT t) (t_vis y)) = true -> In (MT t) s.
Proof.
  intros T W. destruct (con_ty t y T) as (V & _ & N & _). unfold newvis in W.
  destruct (existsb (mark_eqb (MT t)) s) eqn:X; [apply marked_in; auto|]. rewrite andb_false_r in W.
  destruct V as [V|[V|V]]; rewrite V in W; try discriminate W.
  apply marked_in. assert (S : settled p s (WT (Rtid t))).
  { apply Sr. unfold roots. apply in_or_app. right. apply in_or_app. left. apply (in_map (fun t => WT (Rtid t))). apply filter_In.
    split; auto. unfold exported. rewrite T, V. reflexivity. }
  unfold settled, enter in S. rewrite T in S. destruct (existsb (mark_eqb (MT t)) s); [auto|discriminate S].
Qed.
Lemma written_tr u r : trof p u = Some r -> written (newvis s (MR u) (x_vis r)) = true ->
  forall w, In w (trwork p r) -> settled p s w /\ valid_work p w = true.
Proof.
  intros T W w Hw. destruct (con_tr u r T) as (V & Vw & _). split; auto. unfold newvis in W.
  destruct (existsb (mark_eqb (MR u)) s) eqn:X.
  - apply marked_in in X. apply (Sm _ X). cbn [succ]. rewrite T. auto.
  - rewrite andb_false_r in W. destruct V as [V|V]; rewrite V in W; [discriminate W|].
    apply Sr. unfold roots. apply in_or_app. right. apply in_or_app. right. apply in_or_app. left. apply in_flat_map.
    exists r. split; [apply trof_some in T as [_ T]; eapply nth_error_In; eauto|]. rewrite V. exact Hw.
Qed.
Lemma written_dcl d g : dclof p d = Some g ->
  newvis s (MD d) (svis (d_sym g)) <> Visintern -> newvis s (MD d) (svis (d_sym g)) <> Visbuiltin ->
  exists ing, forall w, In w (dclwork p ing (d_trait g) (d_sym g)) -> settled p s w /\ valid_work p w = true.
Proof.
  intros T W1 W2. assert (I : In g (p_decls p)) by (eapply nth_error_In; eauto). destruct (con_dcl g I) as (V & Vw & _).
  unfold newvis in *. destruct (existsb (mark_eqb (MD d)) s) eqn:X.
  - exists true. intros w Hw. split; auto. apply marked_in in X. apply (Sm _ X). cbn [succ]. rewrite T. auto.
  - rewrite andb_false_r in *. destruct V as [V|[V|V]]; rewrite V in *; try contradiction.
    exists false. intros w Hw. split.
    + apply Sr. unfold roots. apply in_or_app. left. apply in_flat_map. exists g. split; auto. rewrite V. exact Hw.
    + apply Vw. destruct (d_sym g) as [line nm ty v0 c gg e q rr x i f init]. cbn [dclwork] in *. destruct Hw as [<-|Hw]; [left; auto|].
      right. destruct (isexportval p gg (d_trait g) ty); cbn [orb] in *; auto. contradiction.
Qed.

Lemma ref_ok r ws : (forall w, In w ws -> settled p s w /\ valid_work p w = true) ->
  trivial r = true \/ In (WT r) ws -> match r with Rtid t => defines_type (entries p s) t | _ => true end = true.
Proof.
  intros H K. destruct r as [|k|t]; auto. destruct K as [K|K]; [discriminate K|]. destruct (H _ K) as [S V].
  apply settled_type; auto.
Qed.

Lemma impl_works v n : In (v, n) (p_impls p) -> written v = true ->
  (forall w, In w (nodework p false n) -> settled p s w /\ valid_work p w = true) /\
  (exists line tn u t aux ds, n = Nimpl line tn u t aux ds /\ settled p s (WR u) /\ valid_work p (WR u) = true /\
     isname tn = true /\ (forall y, In y ds -> covered_sym p false y = true)).
Proof.
  intros I W. unfold consistent in Con. unfold covered_prog in Cov. splits.
  repeat match goal with X : forallb _ (p_impls p) = true |- _ => rewrite forallb_forall in X; specialize (X _ I) end.
  cbn [fst snd] in *. splits.
  assert (v = 1) as ->.
  { match goal with X : (v =? 0) || _ = true |- _ => rewrite orb_true_iff, !Z.eqb_eq in X; destruct X as [-> | ->] end; [discriminate W|auto]. }
  assert (R : forall w, In w (nodework p false n ++ match n with Nimpl _ _ u _ _ _ => [WR u] | _ => [] end) -> settled p s w).
  { intros w Hw. apply Sr. unfold roots. do 3 (apply in_or_app; right). apply in_flat_map. exists (1, n). split; auto. }
  split.
  - intros w Hw. split; [apply R; apply in_or_app; auto|].
    match goal with X : forallb (valid_work p) _ = true |- _ => rewrite forallb_forall in X; auto end.
  - destruct n; try discriminate. do 6 eexists. split; [reflexivity|]. cbn [covered_impl] in *. splits. repeat split; auto.
    + apply R. apply in_or_app. right. left. auto.
    + match goal with X : forallb (covered_sym p false) _ = true |- _ => rewrite forallb_forall in X; auto end.
Qed.

Lemma closed : resolves (entries p s) = true.
Proof.
  unfold resolves. apply andb_true_iff. split.
  - apply forallb_forall. intros r Hr. apply in_flat_map in Hr as (i & Hi & Hr).
    unfold entries in Hi. rewrite !in_app_iff in Hi. destruct Hi as [Hi|[Hi|[Hi|Hi]]].
    + unfold wtypes in Hi. apply in_flat_map in Hi as ([t y] & He & Hi). apply in_number_ty in He. cbn [fst snd] in *.
      destruct (written _) eqn:W; [|contradiction]. destruct Hi as [<-|[]]. cbn [refs_item] in Hr.
      change (refs_ty (setvis (newvis s (MT t) (t_vis y)) y)) with (refs_ty y) in Hr.
      destruct (con_ty t y He) as (_ & _ & _ & C).
      eapply ref_ok; [apply (marked_ty t y); auto; eapply written_ty; eauto|]. apply tycovers; auto.
    + unfold wtraits in Hi. apply in_flat_map in Hi as ([u x] & He & Hi). apply in_number_tr in He. cbn [fst snd] in *.
      destruct (negb _ && written _) eqn:W; [|contradiction]. splits. destruct Hi as [<-|[]]. cbn [refs_item r_name r_param r_aux r_proto] in Hr.
      destruct (con_tr u x He) as (_ & _ & N & CP). pose proof (written_tr u x He ltac:(auto)) as K.
      rewrite (name_refs _ N) in Hr. cbn [app] in Hr. rewrite !in_app_iff in Hr. destruct Hr as [Hr|[Hr|Hr]].
      * destruct (K (WT (Rtid (x_param x)))) as [S V]; [left; auto|].
        pose proof (V : valid_ref p (Rtid (x_param x)) = true) as V'. cbn [valid_work valid_ref] in V. splits. destruct (tyof p (x_param x)) as [y|] eqn:T; [|discriminate].
        destruct (con_ty _ y T) as (_ & _ & _ & C). apply settled_type in S as [M _]; [|auto].
        eapply ref_ok; [apply (marked_ty _ y M T)|]. apply tycovers; auto.
      * apply in_map_iff in Hr as (t & <- & Ht). apply (ref_ok (Rtid t) _ K). right. right. apply in_or_app. left.
        apply (in_map (fun t => WT (Rtid t))); auto.
      * apply in_flat_map in Hr as (y' & Hy & Hr). apply in_map_iff in Hy as (y & <- & Hy).
        apply symcovers with (ing := false) in Hr; auto. apply (ref_ok r _ K). destruct Hr as [Hr|Hr]; auto.
        right. right. apply in_or_app. right. apply in_flat_map. eauto.
    + unfold wimpls in Hi. apply in_flat_map in Hi as ([v n] & He & Hi). cbn [fst snd] in Hi.
      destruct (written v) eqn:W; [|contradiction]. destruct Hi as [<-|[]].
      destruct (impl_works v n He W) as (K & line & tn & u & t & aux & ds & -> & _ & _ & N & CS).
      cbn [hideimpl refs_item refs_node] in Hr. rewrite (name_refs tn N) in Hr. cbn [app] in Hr.
      apply (ref_ok r _ K). cbn [nodework]. destruct Hr as [<-|Hr]; [right; left; auto|]. apply in_app_or in Hr as [Hr|Hr].
      * right. right. apply in_or_app. left. apply in_map; auto.
      * apply in_flat_map in Hr as (y' & Hy & Hr). apply in_map_iff in Hy as (y & <- & Hy).
        apply symcovers with (ing := false) in Hr; auto. destruct Hr as [Hr|Hr]; auto.
        right. right. apply in_or_app. right. apply in_flat_map. exists y. rewrite symwork_dcl. auto.
    + unfold wdecls in Hi. apply in_flat_map in Hi as ([d g] & He & Hi). apply in_number in He as [He0 He]. cbn [fst snd] in *.
      rewrite Z.sub_0_r in He.
      set (v := newvis s (MD (Z.to_nat d)) (svis (d_sym g))) in *.
      destruct ((v =? Visintern) || (v =? Visbuiltin)) eqn:V; [contradiction|]. apply orb_false_iff in V as [V1 V2].
      apply Z.eqb_neq in V1. apply Z.eqb_neq in V2.
      destruct (d_trait g || sinit (d_sym g) || sfini (d_sym g)); [contradiction|]. destruct Hi as [<-|[]]. cbn [refs_item] in Hr.
      destruct (written_dcl _ g He V1 V2) as (ing & K). apply symcovers with (ing := ing) in Hr.
      * apply (ref_ok r _ K). auto.
      * apply con_dcl. eapply nth_error_In; eauto.
  - apply forallb_forall. intros u Hu. apply in_flat_map in Hu as (i & Hi & Hu).
    assert (TY : forall t y, In (MT t) s -> tyof p t = Some y -> In u (traits_ty y) -> defines_trait (entries p s) u = true).
    { intros t y M T K. unfold traits_ty in K. destruct (marked_ty t y M T (WR u)) as [S V].
      - unfold tywork. destruct (t_body y); try contradiction. right. apply in_or_app. right. apply in_or_app. right. apply in_map; auto.
      - apply settled_trait; auto. }
    unfold entries in Hi. rewrite !in_app_iff in Hi. destruct Hi as [Hi|[Hi|[Hi|Hi]]].
    + unfold wtypes in Hi. apply in_flat_map in Hi as ([t y] & He & Hi). apply in_number_ty in He. cbn [fst snd] in *.
      destruct (written _) eqn:W; [|contradiction]. destruct Hi as [<-|[]]. cbn [traits_item] in Hu.
      apply (TY t y); auto. eapply written_ty; eauto.
    + unfold wtraits in Hi. apply in_flat_map in Hi as ([v x] & He & Hi). apply in_number_tr in He. cbn [fst snd] in *.
      destruct (negb _ && written _) eqn:W; [|contradiction]. splits. destruct Hi as [<-|[]]. cbn [traits_item r_param] in Hu.
      pose proof (written_tr v x He ltac:(auto)) as K. destruct (K (WT (Rtid (x_param x)))) as [S V]; [left; auto|].
      pose proof (V : valid_ref p (Rtid (x_param x)) = true) as V'. cbn [valid_work valid_ref] in V. splits. destruct (tyof p (x_param x)) as [y|] eqn:T; [|discriminate].
      apply settled_type in S as [M _]; [|auto]. apply (TY _ y M T Hu).
    + unfold wimpls in Hi. apply in_flat_map in Hi as ([v n] & He & Hi). cbn [fst snd] in Hi.
      destruct (written v) eqn:W; [|contradiction]. destruct Hi as [<-|[]].
      destruct (impl_works v n He W) as (_ & line & tn & u' & t & aux & ds & -> & S & V & _).
      cbn [hideimpl traits_item] in Hu. destruct Hu as [<-|[]]. apply settled_trait; auto.
    + unfold wdecls in Hi. apply in_flat_map in Hi as ([d g] & He & Hi). cbn [fst snd] in *.
      destruct (_ || _); [contradiction|]. destruct (_ || _); [contradiction|]. destruct Hi as [<-|[]]. contradiction.
Qed.
End Closed.

(* --- what an importer reads mentions the same types --- *)
Section Image.
Variable lt : Z -> Z.
Variable vs : Z -> Z.
Notation im := (im_node lt vs).
Lemma flat_map_map {A B C} (f : B -> list C) (g : A -> B) l : flat_map f (map g l) = flat_map (fun x => f (g x)) l.
Proof. induction l as [|x l IH]; cbn; auto. rewrite IH. auto. Qed.
Lemma flat_map_ext_in {A B} (f g : A -> list B) l : (forall x, In x l -> f x = g x) -> flat_map f l = flat_map g l.
Proof. induction l as [|x l IH]; cbn; intros H; auto. rewrite H, IH; auto. Qed.

Lemma refs_im f :
  (forall n, (length (pickle n) < f)%nat -> refs_node (im n) = refs_node n) /\
  (forall y, (length (wrsym y) < f)%nat -> refs_sym (im_sym lt vs y) = refs_sym y) /\
  (forall t, (length (wrstab t) < f)%nat -> refs_stab (im_stab lt vs t) = refs_stab t).
Proof.
  induction f as [|f (IHn & IHy & IHt)]; [repeat split; intros; lia|].
  assert (L : forall l, (length (wlist pickle l) < f)%nat -> flat_map refs_node (map im l) = flat_map refs_node l).
  { intros l Hl. rewrite flat_map_map. apply flat_map_ext_in. intros x Hx. apply IHn.
    pose proof (len_wlist pickle l x Hx). lia. }
  assert (LY : forall l, (length (wlist wrsym l) < f)%nat -> flat_map refs_sym (map (im_sym lt vs) l) = flat_map refs_sym l).
  { intros l Hl. rewrite flat_map_map. apply flat_map_ext_in. intros x Hx. apply IHy.
    pose proof (len_wlist wrsym l x Hx). lia. }
  split; [|split].
  - intros n Hl.
    destruct n as [|line op did ty param c idx args|line ns name|line l name|line ty nelt v|line a b c d|line a b c|line v ms
                  |line p b|line a b c|line st ss|line nm ty c g e r p init|line ty st args body|line tn tr ty aux ds];
      cbn [pickle wrlit wrsym wrstab] in Hl; cbn [im_node im_lit im_sym im_stab refs_node refs_sym refs_stab]; auto;
      rewrite ?app_length in Hl; cbn [length wrbyte] in Hl.
    + rewrite IHn, L by lia. auto.
    + destruct v; cbn [im_lit]; auto. cbn [wrlit] in Hl. rewrite IHn by lia. auto.
    + rewrite !IHn by lia. auto.
    + rewrite !IHn by lia. auto.
    + rewrite IHn, L by lia. auto.
    + rewrite !IHn by lia. auto.
    + rewrite !IHn by lia. auto.
    + rewrite IHt, L by lia. auto.
    + rewrite !IHn by lia. auto.
    + rewrite IHt, L, IHn by lia. auto.
    + rewrite IHn, LY by lia. auto.
  - intros y Hl. destruct y as [line nm ty v c g e p r x i fi init]. cbn [pickle wrlit wrsym wrstab] in Hl.
    rewrite ?app_length in Hl. assert (E4 : length (wrint line) = 4%nat) by reflexivity.
    cbn [im_node im_lit im_sym im_stab refs_node refs_sym refs_stab]. rewrite IHn by lia. destruct (x =? 0); auto.
    rewrite IHn by lia. auto.
  - intros st Hl. destruct st as [nm ds ts]. cbn [pickle wrlit wrsym wrstab] in Hl. rewrite ?app_length in Hl.
    assert (1 <= length (wrstr nm))%nat by (unfold wrstr, wrint; destruct nm; rewrite ?app_length, be32_len; lia).
    cbn [im_node im_lit im_sym im_stab refs_node refs_sym refs_stab]. rewrite LY by lia. f_equal.
    rewrite flat_map_map. apply flat_map_ext_in. intros [n r] Hx. cbn [fst snd].
    pose proof (len_wlist (fun e : node * ref => pickle (fst e) ++ wrtype (snd e)) ts _ Hx) as Lx.
    cbn [fst snd] in Lx. rewrite app_length in Lx. rewrite IHn by lia. auto.
Qed.
Lemma refs_im_node n : refs_node (im n) = refs_node n.
Proof. apply (proj1 (refs_im (S (length (pickle n))))). lia. Qed.
Lemma refs_im_sym y : refs_sym (im_sym lt vs y) = refs_sym y.
Proof. apply (proj1 (proj2 (refs_im (S (length (wrsym y)))))). lia. Qed.
Lemma refs_im_nodes l : flat_map refs_node (map im l) = flat_map refs_node l.
Proof. rewrite flat_map_map. apply flat_map_ext_in. intros. apply refs_im_node. Qed.
Lemma refs_im_ty t : refs_ty (im_ty lt vs t) = refs_ty t.
Proof.
  unfold refs_ty, im_ty. cbn [t_spec t_seqaux t_body]. f_equal.
  - rewrite flat_map_map. apply flat_map_ext_in. intros x _. cbn. rewrite refs_im_nodes. auto.
  - f_equal. destruct (t_body t); cbn [im_body]; rewrite ?refs_im_node, ?refs_im_nodes; auto.
    rewrite flat_map_map. apply flat_map_ext_in. intros u _. cbn. rewrite refs_im_node. auto.
Qed.
Lemma refs_im_item i : refs_item (im_item lt vs i) = refs_item i.
Proof.
  destruct i; cbn [im_item refs_item]; auto using refs_im_ty, refs_im_node, refs_im_sym.
  cbn [r_name r_param r_aux r_proto im_trait]. rewrite refs_im_node, refs_im_ty. do 3 f_equal.
  rewrite flat_map_map. apply flat_map_ext_in. intros. apply refs_im_sym.
Qed.
Lemma traits_im_item i : traits_item (im_item lt vs i) = traits_item i.
Proof.
  assert (T : forall t, traits_ty (im_ty lt vs t) = traits_ty t) by (intros t; unfold traits_ty, im_ty; cbn; destruct (t_body t); auto).
  destruct i; cbn [im_item traits_item]; auto.
  - apply T.
  - destruct n; auto.
Qed.
Lemma existsb_map' {A B} (f : B -> bool) (g : A -> B) l : existsb f (map g l) = existsb (fun x => f (g x)) l.
Proof. induction l as [|x l IH]; cbn; auto. rewrite IH. auto. Qed.
Lemma existsb_ext' {A} (f g : A -> bool) l : (forall x, f x = g x) -> existsb f l = existsb g l.
Proof. intros H. induction l as [|x l IH]; cbn; auto. rewrite H, IH. auto. Qed.
Lemma forallb_ext' {A} (f g : A -> bool) l : (forall x, f x = g x) -> forallb f l = forallb g l.
Proof. intros H. induction l as [|x l IH]; cbn; auto. rewrite H, IH. auto. Qed.
Lemma resolves_im is : resolves (map (im_item lt vs) is) = resolves is.
Proof.
  unfold resolves. rewrite !flat_map_map.
  rewrite (flat_map_ext_in (fun x => refs_item (im_item lt vs x)) refs_item) by (intros; apply refs_im_item).
  rewrite (flat_map_ext_in (fun x => traits_item (im_item lt vs x)) traits_item) by (intros; apply traits_im_item).
  f_equal; apply forallb_ext'.
  - intros r. destruct r; auto. unfold defines_type. rewrite existsb_map'. apply existsb_ext'. intros x. destruct x; auto.
  - intros u. unfold defines_trait. f_equal. rewrite existsb_map'. apply existsb_ext'. intros x. destruct x; auto.
Qed.
End Image.

(* --- the declarations that generic code mentions --- *)
Lemma globals_worked p f : forall n, (length (pickle n) < f)%nat -> direct p n = true ->
  forall d, In d (globals n) -> visible p d = true \/ In (WD d) (nodework p true n).
Proof.
  induction f as [|f IH]; intros n Hl C d Hd; [lia|].
  assert (L : forall l, (length (wlist pickle l) < f)%nat -> forallb (direct p) l = true ->
     In d (flat_map globals l) -> visible p d = true \/ In (WD d) (flat_map (nodework p true) l)).
  { intros l Hll Cl Hin. apply in_flat_map in Hin as (x & Hx & Hin). rewrite forallb_forall in Cl.
    destruct (IH x) with d as [H|H]; auto.
    - pose proof (len_wlist pickle l x Hx). lia.
    - right. apply in_flat_map. eauto. }
  destruct n as [|line op did ty param c idx args|line ns name|line l name|line ty nelt v|line a b c e|line a b c|line v ms
                  |line q b|line a b c|line st ss|line nm ty c g e rr q init|line ty st args body|line tn tr ty aux ds];
    cbn [direct] in C; cbn [globals] in Hd; try contradiction;
    cbn [pickle wrlit wrsym wrstab] in Hl; rewrite ?app_length in Hl; cbn [length wrbyte] in Hl; splits; cbn [nodework].
  - rewrite !in_app_iff in *. cbn [andb]. destruct Hd as [Hd|[Hd|Hd]].
    + destruct (IH idx) with d as [X|X]; auto. lia.
    + destruct (L args) as [X|X]; auto; [lia|]. tauto.
    + destruct (op =? Ovar); [|contradiction]. destruct Hd as [<-|[]]. right. do 4 right. left. auto.
  - destruct v; try contradiction. destruct (IH f0) with d as [X|X]; auto; [cbn [wrlit] in Hl; lia|]. right. right. auto.
  - rewrite !in_app_iff in *. repeat match goal with X : _ \/ _ |- _ => destruct X as [X|X] end.
    + destruct (IH a) with d as [X|X]; auto; lia.
    + destruct (IH b) with d as [X|X]; auto; lia.
    + destruct (IH c) with d as [X|X]; auto; try lia; tauto.
    + destruct (IH e) with d as [X|X]; auto; try lia; tauto.
  - rewrite !in_app_iff in *. repeat match goal with X : _ \/ _ |- _ => destruct X as [X|X] end.
    + destruct (IH a) with d as [X|X]; auto; lia.
    + destruct (IH b) with d as [X|X]; auto; lia.
    + destruct (IH c) with d as [X|X]; auto; try lia; tauto.
  - rewrite !in_app_iff in *. destruct Hd as [Hd|Hd].
    + destruct (IH v) with d as [X|X]; auto; lia.
    + destruct (L ms) as [X|X]; auto; lia.
  - rewrite !in_app_iff in *. destruct Hd as [Hd|Hd].
    + destruct (IH q) with d as [X|X]; auto; lia.
    + destruct (IH b) with d as [X|X]; auto; lia.
  - rewrite !in_app_iff in *. repeat match goal with X : _ \/ _ |- _ => destruct X as [X|X] end.
    + destruct (IH a) with d as [X|X]; auto; lia.
    + destruct (IH b) with d as [X|X]; auto; lia.
    + destruct (IH c) with d as [X|X]; auto; try lia; tauto.
  - destruct (L ss) as [X|X]; auto; lia.
  - left. rewrite forallb_forall in C. auto.
  - apply in_app_or in Hd as [Hd|Hd].
    + destruct (L args) as [X|X]; auto; [lia|]. right. right. apply in_or_app; auto.
    + destruct (IH body) with d as [X|X]; auto; [lia|]. right. right. apply in_or_app; auto.
Qed.
