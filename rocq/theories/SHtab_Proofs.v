From Verif Require Import Base OpenAddr_Model OpenAddr_Proofs SHtab_Model SHtab_Spec.
Open Scope N_scope.
Ltac Zify.zify_post_hook ::= Z.div_mod_to_equations.

Section P.
Context {K V : Type}.
Variable hash : K -> N.
Variable cmp : K -> K -> bool.
Hypothesis OK : ok_hash cmp hash.
Let crefl := cmp_refl _ _ OK.
Let csym := cmp_sym _ _ OK.
Let ctrans := cmp_trans _ _ OK.
Let chash := cmp_hash _ _ OK.
Notation ht := (ht K V).
Notation hk := (hashk hash).
Notation inv := (@inv K V hash).
Notation Has := (@Has K V cmp).
Notation unique := (@unique K V cmp).

Record wf0 (t : ht) : Prop := {
  w_inv : inv (slots t);
  w_live : nelt t = N.of_nat (cnt live (slots t));
  w_dead : N.of_nat (cnt deadb (slots t)) <= ndead t }.
Record wf (t : ht) : Prop := {
  w_0 :> wf0 t;
  w_half : (2 * cnt live (slots t) <= length (slots t))%nat;
  w_quarter : 4 * ndead t <= N.of_nat (length (slots t)) }.

Lemma wf_free t : wf t -> (cnt used (slots t) < length (slots t))%nat.
Proof.
  intros W. rewrite used_cnt. pose proof (w_half _ W). pose proof (w_quarter _ W). pose proof (w_dead _ W).
  pose proof (pow2_pos _ (i_pow _ _ (w_inv _ W))). lia.
Qed.

Definition put1 (t : ht) (k : K) (v : V) (r : nat * bool) : ht :=
  mkHt (if snd r then nelt t else nelt t + 1) (ndead t)
       (upd (slots t) (fst r) (Some (hk k,
          (if snd r then match nth (fst r) (slots t) None with Some (_, k', _, _) => k' | None => k end else k), v, false))).

Lemma put1_spec t k v : wf0 t -> (cnt used (slots t) < length (slots t))%nat ->
  exists r, put_find cmp (length (slots t)) (slots t) (hk k) k 0 = Some r /\
    wf0 (put1 t k v r) /\ length (slots (put1 t k v r)) = length (slots t) /\
    ndead (put1 t k v r) = ndead t /\
    (cnt live (slots (put1 t k v r)) <= cnt live (slots t) + 1)%nat /\
    (cnt deadb (slots (put1 t k v r)) <= cnt deadb (slots t))%nat /\
    (forall x w, Has (slots (put1 t k v r)) x w -> (cmp k x = true /\ w = v) \/ Has (slots t) x w) /\
    (unique (slots t) -> ((forall w, ~ Has (slots t) k w) \/ cnt deadb (slots t) = 0%nat) ->
       unique (slots (put1 t k v r)) /\
       forall x w, Has (slots (put1 t k v r)) x w <-> (if cmp k x then w = v else Has (slots t) x w)).
Proof.
  intros W Hc.
  destruct (put_find_ok hash cmp crefl csym ctrans chash (slots t) k (i_pow _ _ (w_inv _ W)) Hc) as (r & E & P).
  exists r. split; [exact E|].
  set (k0 := if snd r then match nth (fst r) (slots t) None with Some (_, k', _, _) => k' | None => k end else k).
  assert (C0 : cmp k0 k = true).
  { unfold k0. destruct P as (d & Hd & Hr & Hpre & Hst). destruct (snd r); auto.
    unfold at_ in Hst. rewrite <- Hr in Hst.
    destruct (nth (fst r) (slots t) None) as [[[[? ?] ?] [|]]|]; cbn in Hst; try discriminate.
    now apply andb_true_iff in Hst. }
  pose proof (pf_counts hash cmp crefl csym ctrans chash (slots t) k r k0 v (w_inv _ W) P) as (L & C1 & C2).
  pose proof (inv_upd_put hash cmp chash (slots t) k r k0 v (w_inv _ W) P C0) as I.
  unfold put_slot in *.
  assert (Es : slots (put1 t k v r) = upd (slots t) (fst r) (Some (hk k, k0, v, false))) by reflexivity.
  rewrite !Es.
  split; [|split; [|split; [|split; [|split; [|split]]]]]; auto.
  - split; rewrite ?Es; auto; cbn [put1 nelt ndead].
    + rewrite C1, (w_live _ W). destruct (snd r); lia.
    + pose proof (w_dead _ W). lia.
  - destruct (snd r); lia.
  - lia.
  - intros x w (j & h & k' & Ej & Cj). rewrite nth_upd in Ej. destruct (_ && _).
    + inversion Ej; subst. left. split; auto. apply ctrans with k0; auto. now rewrite csym.
    + right. exists j, h, k'. auto.
  - intros U Habs.
    apply (put_effect hash cmp crefl csym ctrans chash (slots t) k r k0 v (w_inv _ W) U P C0).
    destruct (snd r) eqn:Sr; auto. right. destruct Habs as [Habs|Hnd]; auto.
    apply (pf_nodead_absent hash cmp chash (slots t) k r (w_inv _ W) P Sr).
    destruct (deadb _) eqn:D; auto. lia.
Qed.

Lemma htput_eq d t k v r : put_find cmp (length (slots t)) (slots t) (hk k) k 0 = Some r ->
  htput hash cmp d t k v =
    if len (put1 t k v r) <? nelt (put1 t k v r) * 2
    then match d with O => None | S d => resize (htput hash cmp d) (put1 t k v r) (2 * length (slots (put1 t k v r))) end
    else Some (put1 t k v r).
Proof.
  intros E. destruct d; cbn [htput]; rewrite E; destruct r as [i c]; cbn [bind]; rewrite mkslot_hashk; reflexivity.
Qed.

Lemma htput_room d t k v : wf0 t ->
  (2 * (cnt live (slots t) + 1) <= length (slots t))%nat -> (cnt deadb (slots t) = 0)%nat ->
  exists r, htput hash cmp d t k v = Some (put1 t k v r) /\
    wf0 (put1 t k v r) /\ length (slots (put1 t k v r)) = length (slots t) /\
    ndead (put1 t k v r) = ndead t /\
    (cnt live (slots (put1 t k v r)) <= cnt live (slots t) + 1)%nat /\
    (cnt deadb (slots (put1 t k v r)) = 0)%nat /\
    (forall x w, Has (slots (put1 t k v r)) x w -> (cmp k x = true /\ w = v) \/ Has (slots t) x w) /\
    (unique (slots t) -> unique (slots (put1 t k v r)) /\
       forall x w, Has (slots (put1 t k v r)) x w <-> (if cmp k x then w = v else Has (slots t) x w)).
Proof.
  intros W H1 H2.
  destruct (put1_spec t k v W) as (r & E & W' & L & Nd & C1 & C2 & S1 & S2).
  { rewrite used_cnt. lia. }
  exists r. split.
  - rewrite (htput_eq d t k v r E). unfold len. rewrite (w_live _ W').
    destruct (N.ltb_spec (N.of_nat (length (slots (put1 t k v r)))) (N.of_nat (cnt live (slots (put1 t k v r))) * 2)); [lia|].
    reflexivity.
  - split; auto. split; auto. split; auto. split; auto. split; [lia|]. split; auto.
Qed.

Definition HasL (es : list (K * V)) (x : K) (w : V) : Prop := exists k, In (k, w) es /\ cmp k x = true.

Lemma grow_fold d es : forall t, wf0 t -> ndead t = 0 ->
  (2 * (cnt live (slots t) + length es) <= length (slots t))%nat ->
  exists t', fold_left (fun acc e => bind acc (fun t => htput hash cmp d t (fst e) (snd e))) es (Some t) = Some t' /\
    wf0 t' /\ ndead t' = 0 /\ length (slots t') = length (slots t) /\
    (cnt live (slots t') <= cnt live (slots t) + length es)%nat /\
    (forall x w, Has (slots t') x w -> Has (slots t) x w \/ HasL es x w) /\
    (unique (slots t) -> distinct cmp es -> (forall k v w, In (k, v) es -> ~ Has (slots t) k w) ->
      unique (slots t') /\ forall x w, Has (slots t') x w <-> Has (slots t) x w \/ HasL es x w).
Proof.
  induction es as [|[k v] es IH]; intros t W D R.
  - exists t. cbn [fold_left]. split; auto. split; auto. split; auto. split; auto. split; [lia|]. split; auto.
    intros U _ _. split; auto. intros x w. split; auto. intros [H|(k & [] & _)]; auto.
  - cbn [length] in R. cbn [fold_left bind fst snd].
    destruct (htput_room d t k v W) as (r & E & W' & L & Nd & C1 & C2 & S1 & S2); [lia|pose proof (w_dead _ W); lia|].
    rewrite E. destruct (IH (put1 t k v r)) as (t' & E' & W2 & D2 & L2 & C3 & S3 & S4); auto; [lia|].
    exists t'. split; auto. split; auto. split; auto. split; [lia|]. split; [cbn [length]; lia|]. split.
    + intros x w H. apply S3 in H as [H|(k' & Hin & C)].
      * apply S1 in H as [[Hk ->]|H]; auto. right. exists k. split; [left; auto|auto].
      * right. exists k'. split; [right; auto|auto].
    + intros U Dis Hab. destruct (S2 U) as [U1 E1].
      inversion Dis as [|? ? F Dis']; subst.
      destruct S4 as [U2 E2]; auto.
      { intros k1 v1 w Hin HH. apply E1 in HH. rewrite Forall_forall in F. specialize (F _ Hin). cbn in F.
        rewrite F in HH. eapply Hab; [right; eauto|eauto]. }
      split; auto. intros x w. rewrite E2, E1. split.
      * intros [H|(k' & Hin & C)].
        { destruct (cmp k x) eqn:C; auto. subst w. right. exists k. split; [left; auto|auto]. }
        right. exists k'. split; [right; auto|auto].
      * intros [H|(k' & [Hin|Hin] & C)].
        { left. destruct (cmp k x) eqn:C; auto. exfalso. apply (Hab k v w); [left; auto|].
          destruct H as (j & h & k' & Ej & Cj). exists j, h, k'. split; auto. apply ctrans with x; auto. now rewrite csym. }
        { inversion Hin; subst. left. now rewrite C. }
        { right. exists k'. auto. }
Qed.

Lemma empty_wf0 n : pow2 n -> wf0 (@empty K V n).
Proof.
  intros H. split; cbn [empty slots nelt ndead].
  - now apply inv_empty.
  - rewrite cnt_repeat; auto.
  - rewrite cnt_repeat; auto. lia.
Qed.

Lemma resize_spec d t n : wf0 t -> pow2 n -> (2 * cnt live (slots t) <= n)%nat ->
  exists t', resize (htput hash cmp d) t n = Some t' /\ wf t' /\ ndead t' = 0 /\
    (forall x w, Has (slots t') x w -> Has (slots t) x w) /\
    (unique (slots t) -> unique (slots t') /\ forall x w, Has (slots t') x w <-> Has (slots t) x w).
Proof.
  intros W Hp Hn. unfold resize.
  destruct (grow_fold d (entries (slots t)) (empty n)) as (t' & E & W' & D & L & C & S1 & S2).
  - now apply empty_wf0.
  - reflexivity.
  - cbn [empty slots]. rewrite cnt_repeat, repeat_length, entries_length by auto. lia.
  - exists t'. cbn [empty slots] in *. rewrite cnt_repeat, entries_length in C by auto. rewrite repeat_length in L.
    split; auto. split; [split; auto; lia|]. split; auto.
    assert (HL : forall x w, HasL (entries (slots t)) x w <-> Has (slots t) x w).
    { intros x w. split.
      - intros (k & Hin & Ck). apply in_entries in Hin as (j & h & Ej). exists j, h, k. auto.
      - intros (j & h & k & Ej & Ck). exists k. split; auto. apply in_entries. eauto. }
    split.
    + intros x w H. apply S1 in H as [H|H]; [destruct (has_empty _ _ _ _ H)|now apply HL].
    + intros U. destruct S2 as [U2 E2].
      * apply unique_empty.
      * now apply (entries_distinct hash cmp crefl csym ctrans chash).
      * intros k v w _ H. destruct (has_empty _ _ _ _ H).
      * split; auto. intros x w. rewrite E2, HL. split; [|auto].
        intros [H|H]; auto. destruct (has_empty _ _ _ _ H).
Qed.

Lemma htput_spec t k v : wf t ->
  exists t', htput hash cmp 1 t k v = Some t' /\ wf t' /\
    (cnt deadb (slots t') <= cnt deadb (slots t))%nat /\
    (forall x w, Has (slots t') x w -> (cmp k x = true /\ w = v) \/ Has (slots t) x w) /\
    (unique (slots t) -> ((forall w, ~ Has (slots t) k w) \/ cnt deadb (slots t) = 0%nat) ->
       unique (slots t') /\
       forall x w, Has (slots t') x w <-> (if cmp k x then w = v else Has (slots t) x w)).
Proof.
  intros W.
  destruct (put1_spec t k v W (wf_free _ W)) as (r & E & W' & L & Nd & C1 & C2 & S1 & S2).
  rewrite (htput_eq 1 t k v r E). set (t1 := put1 t k v r) in *.
  pose proof (i_pow _ _ (w_inv _ W')) as Hp.
  unfold len. rewrite (w_live _ W').
  destruct (N.ltb_spec (N.of_nat (length (slots t1))) (N.of_nat (cnt live (slots t1)) * 2)) as [G|G].
  - destruct (resize_spec 0 t1 (2 * length (slots t1)) W') as (t2 & E2 & W2 & D2 & A1 & A2).
    { rewrite Nat.mul_comm. now apply pow2_double. }
    { pose proof (cnt_le live (slots t1)). lia. }
    rewrite E2. exists t2. split; auto. split; auto. split; [pose proof (w_dead _ W2); lia|]. split.
    + intros x w H1. apply S1, A1, H1.
    + intros U Hab. destruct (S2 U Hab) as [U1 E1]. destruct (A2 U1) as [U3 E3]. split; auto.
      intros x w. now rewrite E3, E1.
  - exists t1. split; auto. split; [split; auto|]; [lia| |].
    + rewrite Nd, L. apply W.
    + split; [lia|]. split; auto.
Qed.

Lemma idx_find fuel (t : tab K V) k di : idx_loop cmp fuel t (hk k) k di = find_loop cmp fuel t (hk k) k di.
Proof.
  revert di; induction fuel as [|f IH]; intros di; cbn [idx_loop find_loop]; auto.
  destruct (at_ t (hk k) di) as [[[[h' k'] v'] d]|] eqn:E; auto.
  destruct d, (N.eqb_spec h' (hk k)) as [Heq|Hne]; cbn [negb andb orb]; auto; destruct (cmp k' k); auto.
Qed.

Lemma idx_spec t k : wf t -> exists r, idx hash cmp t k = Some r /\ find_post hash cmp (slots t) k r.
Proof.
  intros W. unfold idx. rewrite idx_find.
  apply (find_ok hash cmp crefl csym ctrans chash); [apply W|now apply wf_free].
Qed.

Lemma htget_spec t k : wf t -> unique (slots t) ->
  exists r, htget hash cmp t k = Some r /\ forall v, r = Some v <-> Has (slots t) k v.
Proof.
  intros W U. destruct (idx_spec t k W) as (r & E & P). unfold htget. rewrite E. cbn [bind].
  destruct r as [i|]; cbn in P.
  - destruct P as (k' & v & Ei & C). rewrite Ei. exists (Some v). split; auto. intros w. split.
    + intros H; inversion H; subst. exists i, (hk k), k'. auto.
    + intros (j & h & k2 & Ej & C2). f_equal. assert (i = j); [|congruence].
      apply (U _ _ _ _ _ _ _ _ Ei Ej). apply ctrans with k; auto. now rewrite csym.
  - exists None. split; auto. intros w; split; [discriminate|]. intros H. destruct (P _ H).
Qed.

Lemma htgetv_eq t k d : wf t -> htgetv hash cmp t k d = option_map (fun r => match r with Some v => v | None => d end) (htget hash cmp t k).
Proof.
  intros W. destruct (idx_spec t k W) as (r & E & P). unfold htget, htgetv. rewrite E. cbn [bind].
  destruct r as [i|]; cbn in P; auto. destruct P as (k' & v & Ei & C). rewrite Ei. reflexivity.
Qed.

Lemma htget_sound t k v : wf t -> htget hash cmp t k = Some (Some v) -> Has (slots t) k v.
Proof.
  intros W. destruct (idx_spec t k W) as (r & E & P). unfold htget. rewrite E. cbn [bind].
  destruct r as [i|]; cbn in P; [|discriminate].
  destruct P as (k' & w & Ei & C). rewrite Ei. intros H; inversion H; subst. exists i, (hk k), k'. auto.
Qed.

Lemma htget_total t k : wf t -> exists r, htget hash cmp t k = Some r.
Proof.
  intros W. destruct (idx_spec t k W) as (r & E & P). unfold htget. rewrite E. cbn [bind].
  destruct r as [i|]; eauto. destruct P as (k' & v & Ei & C). rewrite Ei. eauto.
Qed.

Lemma hthas_spec t k : wf t ->
  exists b, hthas hash cmp t k = Some b /\ (b = true <-> exists v, Has (slots t) k v).
Proof.
  intros W. destruct (idx_spec t k W) as (r & E & P). unfold hthas. rewrite E. cbn [bind].
  destruct r as [i|]; cbn in P; eexists; split; eauto.
  - split; auto. intros _. destruct P as (k' & v & Ei & C). exists v, i, (hk k), k'. auto.
  - split; [discriminate|]. intros [v H]. destruct (P _ H).
Qed.

Lemma htdel_spec t k : wf t ->
  exists t', htdel hash cmp t k = Some t' /\ wf t' /\
    ((forall w, ~ Has (slots t) k w) -> t' = t) /\
    (forall x w, Has (slots t') x w -> Has (slots t) x w) /\
    (unique (slots t) -> unique (slots t') /\
       forall x w, Has (slots t') x w <-> (cmp k x = false /\ Has (slots t) x w)).
Proof.
  intros W. destruct (idx_spec t k W) as (r & E & P). unfold htdel. rewrite E. cbn [bind].
  destruct r as [i|]; cbn in P.
  - destruct P as (k' & v & Ei & C). rewrite Ei.
    destruct (kill_spec hash cmp crefl csym ctrans chash (slots t) i (hk k) k' v (w_inv _ W) Ei) as (I & U' & L & C1 & C2).
    set (t1 := mkHt (nelt t - 1) (ndead t + 1) (upd (slots t) i (Some (hk k, k', v, true)))).
    assert (Hc : forall x, cmp k' x = cmp k x).
    { intros x. destruct (cmp k' x) eqn:A, (cmp k x) eqn:B; auto.
      - assert (cmp k x = true); [|congruence]. apply ctrans with k'; auto. now rewrite csym.
      - assert (cmp k' x = true); [|congruence]. now apply ctrans with k. }
    assert (W1 : wf0 t1).
    { split; cbn [t1 slots nelt ndead]; auto.
      - rewrite (w_live _ W). lia.
      - pose proof (w_dead _ W). lia. }
    assert (S1 : forall x w, Has (slots t1) x w -> Has (slots t) x w).
    { intros x w (j & h & k2 & Ej & C3). cbn [t1 slots] in Ej. rewrite nth_upd in Ej. destruct (_ && _); [discriminate|]. exists j, h, k2. auto. }
    assert (S2 : unique (slots t) -> unique (slots t1) /\ forall x w, Has (slots t1) x w <-> (cmp k x = false /\ Has (slots t) x w)).
    { intros U. destruct (U' U) as [U1 E1]. split; auto. intros x w. cbn [t1 slots]. rewrite E1, Hc. tauto. }
    assert (Hh : (2 * cnt live (slots t1) <= length (slots t1))%nat).
    { cbn [t1 slots]. pose proof (w_half _ W). lia. }
    cbv zeta. unfold len.
    destruct (N.ltb_spec (N.of_nat (length (slots t1))) (ndead t1 * 4)) as [G|G].
    + destruct (resize_spec 1 t1 (length (slots t1)) W1 (i_pow _ _ (w_inv _ W1)) Hh) as (t2 & E2 & W2 & D2 & A1 & A2).
      exists t2. split; auto. split; auto. split.
      { intros Hab. exfalso. apply (Hab v). exists i, (hk k), k'. auto. }
      split; auto. intros U. destruct (S2 U) as [U1 E1]. destruct (A2 U1) as [U3 E3]. split; auto.
      intros x w. now rewrite E3, E1.
    + exists t1. split; auto. split; [split; auto; lia|]. split.
      { intros Hab. exfalso. apply (Hab v). exists i, (hk k), k'. auto. }
      split; auto.
  - exists t. split; auto. split; auto. split; auto. split; auto. intros U. split; auto.
    intros x w. split; [|tauto]. intros H. split; auto. destruct (cmp k x) eqn:C; auto. exfalso.
    destruct H as (j & h & k2 & Ej & C3). apply (P w). exists j, h, k2. split; auto. apply ctrans with x; auto. now rewrite csym.
Qed.

Lemma mkht_wf : wf (@mkht K V).
Proof.
  split.
  - apply empty_wf0. exists 5. reflexivity.
  - cbn [mkht empty slots]. rewrite !cnt_repeat by auto. lia.
  - cbn [mkht empty slots ndead]. lia.
Qed.

Lemma run_app os (t : ht) o : run hash cmp os = Some t -> run hash cmp (os ++ [o]) = step hash cmp t o.
Proof. intros H. unfold run in *. rewrite fold_left_app, H. reflexivity. Qed.

Lemma step_wf t o : wf t -> exists t', step hash cmp t o = Some t' /\ wf t'.
Proof.
  intros W. destruct o as [k v|k]; cbn [step].
  - destruct (htput_spec t k v W) as (t' & E & W' & _). eauto.
  - destruct (htdel_spec t k W) as (t' & E & W' & _). eauto.
Qed.

Lemma run_wf (os : list (op K V)) : exists t, run hash cmp os = Some t /\ wf t.
Proof.
  induction os as [|o os IH] using rev_ind.
  - exists mkht. split; auto using mkht_wf.
  - destruct IH as (t & E & W). destruct (step_wf t o W) as (t' & E' & W'). exists t'. split; auto.
    now rewrite (run_app os t o E).
Qed.

Lemma run_sound os (t : ht) : run hash cmp os = Some t -> forall x w, Has (slots t) x w ->
  exists k, In (Put k w) os /\ cmp k x = true.
Proof.
  revert t; induction os as [|o os IH] using rev_ind; intros t' E x w H.
  - inversion E; subst. cbn [mkht empty slots] in H. destruct (has_empty _ _ _ _ H).
  - destruct (run_wf os) as (t & E1 & W). rewrite (run_app os t o E1) in E.
    assert (HH : (exists k, o = Put k w /\ cmp k x = true) \/ Has (slots t) x w).
    { destruct o as [k v|k]; cbn [step] in E.
      - destruct (htput_spec t k v W) as (t2 & E2 & W2 & _ & S & _). rewrite E2 in E; inversion E; subst.
        apply S in H as [[C ->]|H]; eauto.
      - destruct (htdel_spec t k W) as (t2 & E2 & W2 & _ & S & _). rewrite E2 in E; inversion E; subst. auto. }
    destruct HH as [(k & -> & C)|HH].
    + exists k. split; auto. apply in_or_app; right; left; auto.
    + destruct (IH t E1 x w HH) as (k & Hin & C). exists k. split; auto. apply in_or_app; auto.
Qed.

Definition Rep (t : ht) (m : K -> option V) : Prop := unique (slots t) /\ forall x w, Has (slots t) x w <-> m x = Some w.

Lemma Rep_step t m o (deleted : bool) : wf t -> Rep t m -> (deleted = false -> cnt deadb (slots t) = 0%nat) ->
  (match o with Put k v => deleted = true -> m k = None | Del _ => True end) ->
  exists t', step hash cmp t o = Some t' /\ wf t' /\ Rep t' (spec_step cmp m o) /\
    (match o with Put _ _ => deleted | Del k => deleted || match m k with Some _ => true | None => false end end = false ->
     cnt deadb (slots t') = 0%nat).
Proof.
  intros W [U R] Hd Hs. destruct o as [k v|k]; cbn [step spec_step].
  - destruct (htput_spec t k v W) as (t' & E & W' & D & _ & S). exists t'. split; auto. split; auto.
    destruct S as [U' E']; auto.
    { destruct deleted; auto. left. intros w H. apply R in H. rewrite Hs in H by auto. discriminate. }
    split; [|intros Hf; specialize (Hd Hf); lia]. split; auto. intros x w. rewrite E'. destruct (cmp k x); [|apply R].
    split; [intros ->; auto|congruence].
  - destruct (htdel_spec t k W) as (t' & E & W' & Habs & _ & S). exists t'. split; auto. split; auto.
    destruct (S U) as [U' E']. split; [split; auto|].
    + intros x w. rewrite E', R. destruct (cmp k x); split; try discriminate; try tauto. intros [? _]; discriminate.
    + intros Hf. apply orb_false_iff in Hf as [Hf1 Hf2]. rewrite Habs; auto.
      intros w H. apply R in H. rewrite H in Hf2. discriminate.
Qed.

Lemma run_Rep (os : list (op K V)) : safe cmp os -> exists t, run hash cmp os = Some t /\ wf t /\ Rep t (spec cmp os).
Proof.
  unfold safe, run, spec.
  assert (G : forall os t m (deleted : bool), wf t -> Rep t m -> (deleted = false -> cnt deadb (slots t) = 0%nat) ->
    safe_from cmp m deleted os ->
    exists t', fold_left (fun acc o => bind acc (fun t => step hash cmp t o)) os (Some t) = Some t' /\ wf t' /\
      Rep t' (fold_left (spec_step cmp) os m)).
  { clear os. induction os as [|o os IH]; intros t m deleted W R Hd S.
    - exists t. auto.
    - destruct (Rep_step t m o deleted W R Hd) as (t1 & E1 & W1 & R1 & D1).
      { destruct o; auto. apply S. }
      cbn [fold_left bind]. rewrite E1. destruct o as [k v|k]; cbn [safe_from] in S.
      + apply IH with (deleted := deleted); auto. apply S.
      + eapply IH; eauto. }
  apply G with (t := mkht); auto using mkht_wf.
  - split.
    + apply unique_empty.
    + intros x w. split; [|discriminate]. intros H. destruct (has_empty _ _ _ _ H).
Qed.

(* iteration *)
Lemma scan_spec (s : list (slot K V)) i :
  match scan s i with
  | (None, _) => entries s = []
  | (Some e, i') => exists n, i' = (i + S n)%nat /\ entries s = e :: entries (skipn (S n) s)
  end.
Proof.
  revert i; induction s as [|[[[[h k] v] [|]]|] s IH]; intros i; cbn [scan]; auto.
  - specialize (IH (S i)). destruct (scan s (S i)) as [[e|] i']; auto.
    destruct IH as (n & -> & E). exists (S n). split; [lia|]. exact E.
  - exists 0%nat. split; [lia|]. reflexivity.
  - specialize (IH (S i)). destruct (scan s (S i)) as [[e|] i']; auto.
    destruct IH as (n & -> & E). exists (S n). split; [lia|]. exact E.
Qed.

Lemma skipn_skipn' {A} (l : list A) a b : skipn a (skipn b l) = skipn (b + a) l.
Proof. revert l; induction b as [|b IH]; intros l; cbn; auto. destruct l; cbn; auto. now rewrite skipn_nil. Qed.

Lemma iterate_spec (t : ht) : forall fuel i, (length (slots t) < fuel + i)%nat -> (0 < fuel)%nat ->
  iterate fuel t i = Some (entries (skipn i (slots t))).
Proof.
  induction fuel as [|f IH]; intros i Hf H0; [lia|]. cbn [iterate]. unfold iternext.
  pose proof (scan_spec (skipn i (slots t)) i) as S. destruct (scan (skipn i (slots t)) i) as [[e|] i'].
  - destruct S as (n & -> & E). rewrite E, skipn_skipn'.
    destruct f as [|f].
    + exfalso. rewrite skipn_all2 in E by lia. discriminate.
    + rewrite IH by lia. reflexivity.
  - now rewrite S.
Qed.

Lemma entries_rep t m : wf t -> Rep t m ->
  htcount t = N.of_nat (length (entries (slots t))) /\
  ForallOrdPairs (fun a b => cmp (fst a) (fst b) = false) (entries (slots t)) /\
  (forall x v, (exists k, In (k, v) (entries (slots t)) /\ cmp k x = true) <-> m x = Some v).
Proof.
  intros W [U R]. split; [|split].
  - rewrite entries_length. apply W.
  - exact (entries_distinct hash cmp crefl csym ctrans chash _ U).
  - intros x v. rewrite <- R. split.
    + intros (k & Hin & C). apply in_entries in Hin as (j & h & Ej). exists j, h, k. auto.
    + intros (j & h & k & Ej & C). exists k. split; auto. apply in_entries. eauto.
Qed.

Lemma safe_main (os : list (op K V)) : safe cmp os -> exists t, run hash cmp os = Some t /\
  (forall k, htget hash cmp t k = Some (spec cmp os k)) /\
  (forall k d, htgetv hash cmp t k d = Some (match spec cmp os k with Some v => v | None => d end)) /\
  (forall k, hthas hash cmp t k = Some (match spec cmp os k with Some _ => true | None => false end)) /\
  exists kvs, iterate (S (length (slots t))) t 0 = Some kvs /\
     htkeys t = Some (map fst kvs) /\ htcount t = N.of_nat (length kvs) /\
     ForallOrdPairs (fun a b => cmp (fst a) (fst b) = false) kvs /\
     forall x v, (exists k, In (k, v) kvs /\ cmp k x = true) <-> spec cmp os x = Some v.
Proof.
  intros S. destruct (run_Rep os S) as (t & E & W & R). exists t. split; auto.
  assert (G : forall k, htget hash cmp t k = Some (spec cmp os k)).
  { intros k. destruct (htget_spec t k W (proj1 R)) as (r & Er & Hr). rewrite Er. f_equal.
    destruct r as [v|].
    - symmetry. apply R, Hr. reflexivity.
    - destruct (spec cmp os k) as [v|] eqn:Es; auto. apply R, Hr in Es. discriminate. }
  split; auto. split; [|split].
  - intros k d. rewrite htgetv_eq by auto. rewrite G. reflexivity.
  - intros k. destruct (hthas_spec t k W) as (b & Eb & Hb). rewrite Eb. f_equal.
    destruct (spec cmp os k) as [v|] eqn:Es.
    + apply Hb. exists v. now apply R.
    + destruct b; auto. destruct (proj1 Hb eq_refl) as [v Hv]. apply R in Hv. congruence.
  - destruct (entries_rep t _ W R) as (A & B & C).
    exists (entries (slots t)). split; [|split; [|split; [|split]]]; auto.
    + rewrite iterate_spec; auto; lia.
    + unfold htkeys. rewrite map_length. unfold htcount in A. rewrite <- A, N.leb_refl. reflexivity.
Qed.

Lemma nodel_safe (os : list (op K V)) : (forall k, ~ In (Del k) os) -> safe cmp os.
Proof.
  unfold safe. generalize (fun _ : K => @None V). induction os as [|o os IH]; intros m H; cbn; auto.
  destruct o as [k v|k].
  - split; [discriminate|]. apply IH. intros k' Hin. apply (H k'). right; auto.
  - exfalso. apply (H k). left; auto.
Qed.

Lemma total_main (os : list (op K V)) : exists t, run hash cmp os = Some t /\
  htkeys t <> None /\ iterate (S (length (slots t))) t 0 <> None /\
  forall k, htget hash cmp t k <> None /\ hthas hash cmp t k <> None /\ htdel hash cmp t k <> None /\
    (forall v, htput hash cmp 1 t k v <> None) /\ In None (slots t).
Proof.
  destruct (run_wf os) as (t & E & W). exists t. split; auto. split; [|split].
  - unfold htkeys. rewrite map_length, entries_length. rewrite (w_live _ W), N.leb_refl. discriminate.
  - rewrite iterate_spec by lia. discriminate.
  - intros k.
    destruct (htget_total t k W) as (r & Er). destruct (hthas_spec t k W) as (b & Eb & _).
    destruct (htdel_spec t k W) as (t1 & E1 & _).
    repeat split; try congruence.
    + intros v. destruct (htput_spec t k v W) as (t2 & E2 & _). congruence.
    + destruct (free_pos (slots t) 0 (i_pow _ _ (w_inv _ W)) (wf_free _ W)) as (d & _ & Hd).
      unfold at_ in Hd. rewrite <- Hd. apply nth_In. apply pos_lt, (i_pow _ _ (w_inv _ W)).
Qed.
End P.
