(* When does acceptance mean that every value is matched? *)
From Coq Require Import Lia ZifyBool ZifyNat.
From Verif Require Import Base Match_Spec Match_Model Match_Proofs Match_Rows Match_Top.
Open Scope Z_scope.

(* the check of verifymatch made on default branches too *)
Fixpoint checked (fuel : nat) (ns : list node) (i : nat) : bool :=
  match fuel with
  | O => false
  | S fuel => match nth_error ns i with
    | Some (NTest _ es any nc) =>
      ((Z.of_nat (length es) =? nc) || match any with Some _ => true | None => false end) && forallb (fun e => checked fuel ns (snd e)) es &&
      match any with Some a => checked fuel ns a | None => true end
    | Some NAcc => true
    | None => false
    end
  end.
Lemma forallb_ext_in {A} (f g : A -> bool) l : (forall x, In x l -> f x = g x) -> forallb f l = forallb g l.
Proof. induction l as [|x l IH]; cbn; intros H; [reflexivity|]. rewrite (H x (or_introl eq_refl)), IH; auto. Qed.
Lemma checked_fuel ns : wf ns -> forall i f, (i < f)%nat -> checked f ns i = checked (S i) ns i.
Proof.
  intros W. induction i as [i IH] using lt_wf_ind. intros f Hf. destruct f as [|f]; [lia|]. cbn.
  destruct (nth_error ns i) as [d|] eqn:E; [|reflexivity]. specialize (W i d E). destruct d as [|l es any nc]; [reflexivity|]. destruct W as [W1 W2].
  f_equal; [f_equal|].
  - apply forallb_ext_in. intros e He. specialize (W1 e He). rewrite (IH _ W1 f) by lia. now rewrite (IH _ W1 i) by lia.
  - destruct any as [a|]; [|reflexivity]. specialize (W2 a eq_refl). rewrite (IH a W2 f) by lia. now rewrite (IH a W2 i) by lia.
Qed.
Lemma checked_app ns m : wf ns -> forall i f, (i < length ns)%nat -> checked f (ns ++ m) i = checked f ns i.
Proof.
  intros W. induction i as [i IH] using lt_wf_ind. intros f Hi. destruct f as [|f]; [reflexivity|]. cbn.
  rewrite nth_error_app1 by exact Hi. destruct (nth_error ns i) as [d|] eqn:E; [|reflexivity]. specialize (W i d E). destruct d as [|l es any nc]; [reflexivity|]. destruct W as [W1 W2].
  f_equal; [f_equal|].
  - apply forallb_ext_in. intros e He. specialize (W1 e He). apply IH; lia.
  - destruct any as [a|]; [|reflexivity]. specialize (W2 a eq_refl). apply IH; lia.
Qed.

Inductive reach (ns : list node) : nat -> nat -> Prop :=
| reach_acc i : nth_error ns i = Some NAcc -> reach ns i i
| reach_edge i l es any nc k d h : nth_error ns i = Some (NTest l es any nc) -> In (k, d) es -> reach ns d h -> reach ns i h
| reach_any i l es a nc h : nth_error ns i = Some (NTest l es (Some a) nc) -> reach ns a h -> reach ns i h.
Lemma reach_app ns m i h : reach ns i h -> reach (ns ++ m) i h.
Proof.
  assert (E : forall i d, nth_error ns i = Some d -> nth_error (ns ++ m) i = Some d) by (intros j d E; rewrite nth_error_app1; [exact E|apply nth_error_Some; congruence]).
  induction 1; [apply reach_acc; auto|eapply reach_edge; eauto|eapply reach_any; eauto].
Qed.
Lemma reach_app_inv ns m : wf ns -> forall i h, (i < length ns)%nat -> reach (ns ++ m) i h -> reach ns i h.
Proof.
  intros W i h Hi H. induction H as [i E|i l es any nc k d h E I R IH|i l es a nc h E R IH]; rewrite nth_error_app1 in E by exact Hi.
  - now apply reach_acc.
  - specialize (W i _ E) as Wn. destruct Wn as [W1 _]. specialize (W1 _ I). cbn in W1. eapply reach_edge; eauto. apply IH. lia.
  - specialize (W i _ E) as Wn. destruct Wn as [_ W2]. specialize (W2 a eq_refl). eapply reach_any; eauto. apply IH. lia.
Qed.

Lemma reach_inv ns i h l es any nc : reach ns i h -> nth_error ns i = Some (NTest l es any nc) ->
  (exists k e, In (k, e) es /\ reach ns e h) \/ (exists a, any = Some a /\ reach ns a h).
Proof.
  intros H E. destruct H as [i E'|i l' es' any' nc' k e h E' I R|i l' es' a nc' h E' R]; rewrite E in E'; try discriminate; injection E' as <- <- -> <-; [left; now exists k, e|right; now exists a].
Qed.
Lemma upd_same_nth {A} (l : list A) : forall i x, nth_error l i = Some x -> upd l i x = l.
Proof. induction l as [|a l IH]; intros [|i] x H; cbn in *; try discriminate; [congruence|]. f_equal. now apply IH. Qed.

(* pigeonhole *)
Lemma covers (ks : list Z) lo n k : NoDup ks -> (forall j, In j ks -> lo <= j < lo + n) -> n <= Z.of_nat (length ks) -> lo <= k < lo + n -> In k ks.
Proof.
  intros ND HR HL Hk.
  assert (I : incl (map (fun i => lo + Z.of_nat i) (seq 0 (Z.to_nat n))) ks).
  { apply NoDup_length_incl; [exact ND|rewrite map_length, seq_length; lia|]. intros j Hj. specialize (HR j Hj). apply in_map_iff. exists (Z.to_nat (j - lo)). split; [lia|]. apply in_seq. lia. }
  apply I. apply in_map_iff. exists (Z.to_nat (k - lo)). split; [lia|]. apply in_seq. lia.
Qed.

Section Rows.
Variable origs : list (list slot).
Hypothesis OU : forall R, In R origs -> upath R.
Hypothesis OC : forall R1 R2, In R1 origs -> In R2 origs -> consistent R1 R2.
Hypothesis OL : forall R1 R2 s1 s2, In R1 origs -> In R2 origs -> In s1 R1 -> In s2 R2 -> iscons s1 = true -> iscons s2 = true -> sload s1 = sload s2 -> spath s1 = spath s2.
Hypothesis OR : forall R s k, In R origs -> In s R -> spat s = Some k -> inr s k.
Variable N : nat.
(* the compiler counts a type's values correctly, or the match has fewer rows than its count *)
Hypothesis OF : forall R s, In R origs -> In s R -> iscons s = true -> snd (fst (styp s)) <= snd (styp s) \/ Z.of_nat N < snd (styp s).
Notation Inv := (Inv origs).
Notation InvV := (InvV origs).

Definition G (ns : list node) : Prop := forall i l es any nc, nth_error ns i = Some (NTest l es any nc) ->
  exists h R x, reach ns i h /\ nth_error origs h = Some R /\ In x R /\ iscons x = true /\ sload x = l /\ snd (styp x) = nc.
Definition pre (a b : st) : Prop := exists m, nodes b = nodes a ++ m.
Lemma pre_refl a : pre a a. Proof. exists []. now rewrite app_nil_r. Qed.
Lemma pre_trans a b c : pre a b -> pre b c -> pre a c.
Proof. intros (m & E) (m' & E'). exists (m ++ m'). now rewrite E', E, app_assoc. Qed.
Lemma pre_len a b : pre a b -> (length (nodes a) <= length (nodes b))%nat.
Proof. intros (m & ->). rewrite app_length. lia. Qed.
Lemma pre_accs rows a b : pre a b -> accs rows a -> accs rows b.
Proof. intros (m & E) H r Hr. rewrite E, nth_error_app1; [now apply H|]. apply nth_error_Some. rewrite (H r Hr). discriminate. Qed.
Definition full (s : st) (d : nat) (rows : list row) (D : dset) : Prop := (d < length (nodes s))%nat /\
  (checked (S d) (nodes s) d = true -> forall v, vok origs v -> Forall (InvV v D) rows -> exec (S d) (nodes s) d v <> Falls) /\
  (forall h, reach (nodes s) d h -> In h (map final rows)) /\ (match rows with r :: _ => reach (nodes s) d (final r) | [] => True end).
Lemma full_mono a b d rows D : wf (nodes a) -> pre a b -> full a d rows D -> full b d rows D.
Proof.
  intros W (m & E) (L & F & R1 & R2). unfold full. rewrite E. split; [rewrite app_length; lia|]. split; [|split].
  - rewrite checked_app by assumption. intros C v V I. rewrite exec_app by assumption. now apply F.
  - intros h Hh. apply R1. eapply reach_app_inv; eauto.
  - destruct rows; [exact Logic.I|]. now apply reach_app.
Qed.

Lemma cset_len pi rows : allupath rows -> (length (cset pi rows) <= length rows)%nat.
Proof.
  intros U.
  assert (I : incl (cset pi rows) (flat_map (fun r => match find_at pi (rslots r) with Some s => match spat s with Some k => [k] | None => [] end | None => [] end) rows)).
  { intros k Hk. apply cset_in in Hk as (r & s & Hr & Hs & Hp & Sk). apply in_flat_map. exists r. split; [exact Hr|].
    unfold allupath in U. rewrite Forall_forall in U. assert (E : find_at pi (rslots r) = Some s) by (apply find_at_spec; auto). rewrite E, Sk. now left. }
  pose proof (NoDup_incl_length (cset_nodup pi rows) I) as L. etransitivity; [exact L|]. clear.
  induction rows as [|r rows IH]; cbn; [lia|]. rewrite app_length. destruct (find_at pi (rslots r)) as [s|]; cbn; [destruct (spat s); cbn; lia|lia].
Qed.

Lemma filter_map_len {A B} (f : A -> option B) l : (length (filter_map f l) <= length l)%nat.
Proof. induction l as [|x l IH]; cbn; [lia|]. destruct (f x); cbn; lia. Qed.
Theorem compile_full : forall fuel rows s d s' D, compile fuel rows s = Ok (d, s') -> wf (nodes s) -> accs rows s -> Forall (Inv D) rows -> G (nodes s) -> (length rows <= N)%nat ->
  pre s s' /\ wf (nodes s') /\ G (nodes s') /\ full s' d rows D.
Proof.
  induction fuel as [|fuel IH]; intros rows s d s' D H W A I HG HN; [discriminate|]. destruct rows as [|r0 rows]; [discriminate|]. rewrite compile_S in H.
  destruct (find iscons (rslots r0)) as [sl|] eqn:F.
  2: { injection H as <- <-. cbn [nodes]. assert (A0 := A r0 (or_introl eq_refl)). split; [exists []; cbn; now rewrite app_nil_r|]. split; [exact W|]. split; [exact HG|]. split; cbn [nodes]; [apply nth_error_Some; congruence|]. split; [|split].
       - intros _ v _ _. cbn [exec]. rewrite A0. discriminate.
       - intros h Hh. inversion Hh; subst; [now left|congruence|congruence].
       - now apply reach_acc. }
  remember (r0 :: rows) as all eqn:Eall.
  assert (I0 : Inv D r0) by (subst all; now inversion I).
  assert (HI : forall r, In r all -> Inv D r) by (now apply Forall_forall).
  assert (UA : allupath all) by (unfold allupath; rewrite Forall_forall; intros r Hr; eapply Inv_up; eauto).
  assert (ND : nd D sl = true) by (apply find_some in F as [F _]; destruct I0 as (R & _ & Q & _); rewrite Q in F; now apply filter_In in F).
  assert (IC : iscons sl = true) by (now apply find_some in F).
  assert (NP : forall s, spath s = spath sl -> nd D s = true) by (intros x Hx; unfold nd in *; now rewrite Hx).
  assert (IP : forall k, Forall (Inv ((spath sl, k) :: D)) (filter_map (project k (spath sl)) all)).
  { intros k. rewrite Forall_forall. intros r Hr. apply in_filter_map in Hr as (x & Hx & E). eapply Inv_project; [exact OU|exact (HI x Hx)|auto|exact E|]. intros R y _ _ Hy. now apply NP. }
  assert (AP : forall k s, accs all s -> accs (filter_map (project k (spath sl)) all) s).
  { intros k t At r Hr. apply in_filter_map in Hr as (x & Hx & E). apply project_shape in E. subst r. cbn. now apply At. }
  assert (FP : forall k h, In h (map final (filter_map (project k (spath sl)) all)) -> In h (map final all)).
  { intros k h Hh. apply in_map_iff in Hh as (r & <- & Hr). apply in_filter_map in Hr as (x & Hx & E). apply project_shape in E. subst r. cbn. now apply in_map. }
  (* the edges *)
  assert (HE : forall cs s es s1, edges_loop fuel (spath sl) all cs s = Ok (es, s1) -> wf (nodes s) -> accs all s -> G (nodes s) ->
     pre s s1 /\ wf (nodes s1) /\ G (nodes s1) /\ (forall k d, In (k, d) es -> In k cs /\ full s1 d (filter_map (project k (spath sl)) all) ((spath sl, k) :: D)) /\
     (forall k, In k cs -> filter_map (project k (spath sl)) all <> [] -> exists d, In (k, d) es) /\ (NoDup cs -> NoDup (map fst es)) /\ (length es <= length cs)%nat).
  { induction cs as [|k cs IHc]; intros t es t1 E Wt At Gt; [|rewrite edges_cons in E].
    - injection E as <- <-. split; [apply pre_refl|]. split; [exact Wt|]. split; [exact Gt|]. split; [intros ? ? []|]. split; [intros ? []|]. split; [constructor|cbn; lia].
    - destruct (filter_map (project k (spath sl)) all) as [|p0 ps] eqn:Ep.
      + destruct (IHc _ _ _ E Wt At Gt) as (X1 & X2 & X2g & X3 & X4 & X5 & X6). split; [exact X1|]. split; [exact X2|]. split; [exact X2g|]. split; [|split; [|split]].
        * intros j e Hj. destruct (X3 j e Hj). split; [now right|assumption].
        * intros j [<-|Hj] Hn; [congruence|now apply X4].
        * intros Nd. inversion Nd; subst. auto.
        * cbn. lia.
      + destruct (compile fuel (p0 :: ps) t) as [[e t']| | | | |] eqn:Ec; try discriminate.
        destruct (edges_loop fuel (spath sl) all cs t') as [[es' t2]| | | | |] eqn:El; try discriminate. injection E as <- <-.
        rewrite <- Ep in Ec. destruct (IH _ _ _ _ ((spath sl, k) :: D) Ec Wt (AP k t At) (IP k) Gt) as (X & Wt' & Gt' & Gf).
        { pose proof (filter_map_len (project k (spath sl)) all). lia. }
        destruct (IHc _ _ _ El Wt' (pre_accs _ _ _ X At) Gt') as (X1 & X2 & X2g & X3 & X4 & X5 & X6).
        split; [eapply pre_trans; eauto|]. split; [exact X2|]. split; [exact X2g|]. split; [|split; [|split]].
        * intros j e' [Hj|Hj].
          -- injection Hj as <- <-. split; [now left|]. eapply full_mono; [exact Wt'|exact X1|exact Gf].
          -- destruct (X3 j e' Hj). split; [now right|assumption].
        * intros j [<-|Hj] Hn; [exists e; now left|]. destruct (X4 j Hj Hn) as (e' & He'). exists e'. now right.
        * intros Nd. inversion Nd; subst. cbn. constructor; [|auto]. intros C. apply in_map_iff in C as ([j e'] & Q & C). cbn in Q. subst j. apply X3 in C as [C _]. contradiction.
        * cbn. lia. }
  destruct (edges_loop fuel (spath sl) all (cset (spath sl) all) s) as [[es s1]| | | | |] eqn:El; try discriminate.
  destruct (HE _ _ _ _ El W A HG) as (X1 & W1 & G1 & E1 & E2 & E3 & E4). clear HE. specialize (E3 (cset_nodup _ _)).
  assert (HV : forall v, vok origs v -> Forall (InvV v D) all -> exists k, loadv (sload sl) v = Some (VLit k) /\ inr sl k).
  { intros v V HInv. destruct I0 as (R & E0 & F0 & _). pose proof F as F'. rewrite F0 in F'. destruct (first_cons_split _ _ _ F') as (pr & post & -> & I1 & N1 & P1).
    apply (V _ (nth_error_In _ _ E0) pr sl post eq_refl); [|exact I1]. rewrite Forall_forall. intros x Hx.
    destruct (iscons x) eqn:Ix; [|unfold holds; unfold iscons in Ix; now destruct (spat x)].
    rewrite Forall_forall in HInv. apply (HInv r0 ltac:(subst all; now left) _ x E0); [apply in_or_app; now left|now apply P1]. }
  assert (SL : forall r x, In r all -> In x (rslots r) -> spath x = spath sl -> iscons x = true -> sload x = sload sl /\ styp x = styp sl).
  { intros r x Hr Hx Hp Hi. eapply same_load; [exact OC|exact I0|exact (HI r Hr)|exact F|exact Hx|exact Hp|exact Hi]. }
  assert (Hsl : exists R, nth_error origs (final r0) = Some R /\ In sl R).
  { destruct I0 as (R & Q1 & Q2 & _). exists R. split; [exact Q1|]. apply find_some in F as [F _]. rewrite Q2 in F. now apply filter_In in F. }
  destruct Hsl as (R0 & ER0 & IR0).
  assert (E0 : exists d0, In (match spat sl with Some k => k | None => 0 end, d0) es /\ exists rs, filter_map (project (match spat sl with Some k => k | None => 0 end) (spath sl)) all = mkrow (final r0) (filter (fun s => negb (at_path (spath sl) s)) (rslots r0)) :: rs).
  { unfold iscons in IC. destruct (spat sl) as [k|] eqn:Sk; [|discriminate]. pose proof F as F'. apply find_some in F' as [F' _].
    assert (P : project k (spath sl) r0 = Some (mkrow (final r0) (filter (fun s => negb (at_path (spath sl) s)) (rslots r0)))).
    { unfold project. assert (FA : find_at (spath sl) (rslots r0) = Some sl) by (apply find_at_spec; [eapply Inv_up; eauto|now split]). now rewrite FA, Sk, Z.eqb_refl. }
    assert (FM : filter_map (project k (spath sl)) all = mkrow (final r0) (filter (fun s => negb (at_path (spath sl) s)) (rslots r0)) :: filter_map (project k (spath sl)) rows) by (subst all; cbn [filter_map]; now rewrite P).
    destruct (E2 k) as (d0 & Hd0).
    - apply cset_in. exists r0, sl. subst all. cbn. tauto.
    - rewrite FM. discriminate.
    - exists d0. split; [exact Hd0|]. eexists. exact FM. }
  (* common end: a node with these edges *)
  assert (EX : forall t any, wf (nodes t) -> pre s1 t -> G (nodes t) -> (match any with None => filter (is_default (spath sl)) all = [] | Some a => full t a (filter (is_default (spath sl)) all) D end) ->
     mknode t (sload sl) es any (snd (styp sl)) = Ok (d, s') -> pre t s' /\ wf (nodes s') /\ G (nodes s') /\ full s' d all D).
  { intros t any Wt Xt Gt HA HM.
    assert (E1t : forall k e, In (k, e) es -> In k (cset (spath sl) all) /\ full t e (filter_map (project k (spath sl)) all) ((spath sl, k) :: D)).
    { intros k e He. destruct (E1 k e He) as [Q1 Q2]. split; [exact Q1|]. eapply full_mono; [exact W1|exact Xt|exact Q2]. }
    assert (C1 : forall e, In e es -> (snd e < length (nodes t))%nat) by (intros [k e] He; destruct (E1t _ _ He) as [_ [L _]]; exact L).
    assert (C2 : forall a, any = Some a -> (a < length (nodes t))%nat) by (intros a ->; apply HA).
    destruct (mknode_spec _ _ _ _ _ _ _ HM Wt C1 C2) as (_ & W' & _ & Nd & _ & _).
    (* finals below the node *)
    assert (RB : forall i nc h, nth_error (nodes t) i = Some (NTest (sload sl) es any nc) -> reach (nodes t) i h -> In h (map final all)).
    { intros i nc h Ni Hr. destruct (reach_inv _ _ _ _ _ _ _ Hr Ni) as [(k & e & Ik & Rk)|(a & -> & Rk)].
      - destruct (E1t _ _ Ik) as [_ (_ & _ & R1 & _)]. eapply FP. now apply R1.
      - destruct HA as (_ & _ & R1 & _). apply R1 in Rk. apply in_map_iff in Rk as (r & <- & Hr'). apply filter_In in Hr' as [Hr' _]. now apply in_map. }
    assert (PRE : pre t s').
    { unfold mknode in HM. destruct (search (nodes t) 0 (sload sl) es any) as [j| |] eqn:Q; [| |discriminate]; injection HM as <- <-.
      - destruct (search_found _ _ _ _ _ _ Q) as (nc & _ & Nj). rewrite Nat.sub_0_r in Nj. exists []. cbn. rewrite app_nil_r. apply upd_same_nth. rewrite Nj. f_equal. f_equal.
        destruct (Gt _ _ _ _ _ Nj) as (h & R & x & Rh & ER & IR & Ix & Lx & Tx). pose proof (RB _ _ _ Nj Rh) as Hh. apply in_map_iff in Hh as (r & Ef & Hr).
        destruct (HI r Hr) as (R' & ER' & FR & _). rewrite Ef, ER in ER'. injection ER' as <-.
        assert (Px : spath x = spath sl).
        { eapply OL with (R1 := R) (R2 := R0); [eapply nth_error_In; exact ER|eapply nth_error_In; exact ER0|exact IR|exact IR0|exact Ix|exact IC|exact Lx]. }
        assert (Ixr : In x (rslots r)) by (rewrite FR; apply filter_In; split; [exact IR|now apply NP]).
        destruct (SL r x Hr Ixr Px Ix) as [_ T]. rewrite <- Tx, T. reflexivity.
      - eexists. cbn. reflexivity. }
    split; [exact PRE|]. split; [exact W'|].
    assert (E1' : forall k e, In (k, e) es -> In k (cset (spath sl) all) /\ full s' e (filter_map (project k (spath sl)) all) ((spath sl, k) :: D)).
    { intros k e He. destruct (E1t k e He) as [Q1 Q2]. split; [exact Q1|]. eapply full_mono; [exact Wt|exact PRE|exact Q2]. }
    assert (HA' : match any with None => filter (is_default (spath sl)) all = [] | Some a => full s' a (filter (is_default (spath sl)) all) D end).
    { destruct any; [|exact HA]. eapply full_mono; [exact Wt|exact PRE|exact HA]. }
    assert (RH : reach (nodes s') d (final r0)).
    { destruct E0 as (d0 & Id0 & rs & Ers). eapply reach_edge; [exact Nd|exact Id0|]. destruct (E1' _ _ Id0) as [_ (_ & _ & _ & R2)]. rewrite Ers in R2. exact R2. }
    split.
    - (* G *)
      intros i l es' any' nc Ni. destruct PRE as (m & Em). destruct (Nat.lt_ge_cases i (length (nodes t))) as [Hi|Hi].
      + rewrite Em, nth_error_app1 in Ni by exact Hi. destruct (Gt _ _ _ _ _ Ni) as (h & R & x & Rh & Q). exists h, R, x. split; [rewrite Em; now apply reach_app|exact Q].
      + assert (Ed : i = d).
        { unfold mknode in HM. destruct (search (nodes t) 0 (sload sl) es any) as [j| |] eqn:Q; [| |discriminate]; injection HM as <- <-; cbn [nodes] in *.
          - apply (f_equal (@length _)) in Em. rewrite upd_length, app_length in Em. assert (i < length (upd (nodes t) j (NTest (sload sl) es any (snd (styp sl)))))%nat by (apply nth_error_Some; congruence). rewrite upd_length in *. lia.
          - assert (i < length (nodes t ++ [NTest (sload sl) es any (snd (styp sl))]))%nat by (apply nth_error_Some; congruence). rewrite app_length in *. cbn in *. lia. }
        subst i. rewrite Nd in Ni. injection Ni as <- <- <- <-. exists (final r0), R0, sl. repeat split; auto.
    - split; [apply nth_error_Some; congruence|]. pose proof (W' d _ Nd) as [Wn1 Wn2]. split; [|split].
      + intros C v V HInv. cbn [checked] in C. rewrite Nd in C. apply andb_prop in C as [C Ca]. apply andb_prop in C as [C Cb]. rewrite forallb_forall in Cb.
        destruct (HV v V HInv) as (k & Lk & Rk). cbn [exec]. rewrite Nd, Lk.
        destruct (find (fun e => fst e =? k) es) as [[k' e]|] eqn:Fe.
        * apply find_some in Fe as [Fe Q]. cbn in Q. apply Z.eqb_eq in Q. subst k'. cbn [snd]. specialize (Wn1 _ Fe). cbn in Wn1.
          rewrite (exec_fuel (nodes s') v W' e d Wn1). destruct (E1' _ _ Fe) as [Hk (_ & FF & _)]. apply FF; [|exact V|].
          -- specialize (Cb _ Fe). cbn in Cb. rewrite (checked_fuel _ W' e d Wn1) in Cb. exact Cb.
          -- rewrite Forall_forall. intros r Hr. apply in_filter_map in Hr as (x & Hx & Ex). pose proof (project_shape _ _ _ _ Ex). subst r. intros R y ER Hy Ny. cbn in ER.
             apply nd_false in Ny as (j & [Ny|Ny]).
             ++ injection Ny as Hp _. unfold holds. destruct (spat y) as [a|] eqn:Sy; [|exact Logic.I].
                destruct (HI x Hx) as (R' & ER' & FR & KR). assert (R' = R) by congruence. subst R'.
                assert (Hy' : In y (rslots x)) by (rewrite FR; apply filter_In; split; [exact Hy|apply NP; congruence]).
                destruct (SL x y Hx Hy' (eq_sym Hp)) as [-> _]; [unfold iscons; now rewrite Sy|]. rewrite Lk. f_equal. f_equal.
                unfold project in Ex. assert (FA : find_at (spath sl) (rslots x) = Some y).
                { apply find_at_spec; [|now split]. eapply Inv_up; [exact OU|exact (HI x Hx)]. }
                rewrite FA, Sy in Ex. destruct (a =? k) eqn:Q; [apply Z.eqb_eq in Q; congruence|discriminate].
             ++ rewrite Forall_forall in HInv. apply (HInv x Hx R y ER Hy). apply nd_false. now exists j.
        * destruct any as [a|].
          -- specialize (Wn2 a eq_refl). rewrite (exec_fuel (nodes s') v W' a d Wn2). destruct HA' as (_ & FF & _). apply FF; [|exact V|].
             ++ rewrite (checked_fuel _ W' a d Wn2) in Ca. exact Ca.
             ++ rewrite Forall_forall in *. intros r Hr. apply filter_In in Hr. now apply HInv.
          -- exfalso. rewrite Bool.orb_false_r in C. apply Z.eqb_eq in C.
             assert (Hin : In k (map fst es)).
             { apply covers with (lo := fst (fst (styp sl))) (n := snd (fst (styp sl))); [exact E3| |rewrite map_length|exact Rk].
               - intros j Hj. apply in_map_iff in Hj as ([j' e] & Q & He). cbn in Q. subst j'. destruct (E1' _ _ He) as [Hk _].
                 apply cset_in in Hk as (r & x & Hr & Hx & Hp & Sx). destruct (SL r x Hr Hx Hp) as [_ T]; [unfold iscons; now rewrite Sx|].
                 destruct (HI r Hr) as (R & ER & FR & _). assert (IR : In x R) by (rewrite FR in Hx; now apply filter_In in Hx).
                 pose proof (OR R x j (nth_error_In _ _ ER) IR Sx) as Q. unfold inr in Q. now rewrite T in Q.
               - destruct (OF R0 sl (nth_error_In _ _ ER0) IR0 IC) as [?|?]; [lia|]. pose proof (cset_len (spath sl) all UA). lia. }
             apply in_map_iff in Hin as (e & Q & He). apply (find_none _ _ Fe) in He. rewrite Q, Z.eqb_refl in He. discriminate.
      + intros h Hr. destruct (reach_inv _ _ _ _ _ _ _ Hr Nd) as [(k & e & Ik & Rk)|(a & -> & Rk)].
        * destruct (E1' _ _ Ik) as [_ (_ & _ & R1 & _)]. eapply FP. now apply R1.
        * destruct HA' as (_ & _ & R1 & _). apply R1 in Rk. apply in_map_iff in Rk as (r & <- & Hr'). apply filter_In in Hr' as [Hr' _]. now apply in_map.
      + subst all. exact RH. }
  destruct (filter (is_default (spath sl)) all) as [|d0 ds] eqn:Ed.
  - destruct (EX s1 None W1 (pre_refl _) G1 eq_refl H) as (Y1 & Y2 & Y3 & Y4). split; [eapply pre_trans; eauto|]. auto.
  - destruct (compile fuel (d0 :: ds) s1) as [[a s2]| | | | |] eqn:Ec; try discriminate.
    destruct (IH _ _ _ _ D Ec W1) as (X2 & W2 & G2 & Gf).
    + rewrite <- Ed. intros r Hr. apply filter_In in Hr as [Hr _]. exact (pre_accs _ _ _ X1 A r Hr).
    + rewrite <- Ed. rewrite Forall_forall. intros r Hr. apply filter_In in Hr as [Hr _]. now apply HI.
    + exact G1.
    + rewrite <- Ed. pose proof (filter_le (is_default (spath sl)) all). lia.
    + destruct (EX s2 (Some a) W2 X2 G2 Gf H) as (Y1 & Y2 & Y3 & Y4). split; [eapply pre_trans; [exact X1|eapply pre_trans; eauto]|]. auto.
Qed.
End Rows.
