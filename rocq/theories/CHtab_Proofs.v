From Verif Require Import Base OpenAddr_Model OpenAddr_Proofs CHtab_Model CHtab_Spec.
Open Scope N_scope.
Ltac Zify.zify_post_hook ::= Z.div_mod_to_equations.

Section P.
Context {K V : Type}.
Variable hash : K -> N.
Variable cmp : K -> K -> bool.
Hypothesis OK : ok_hash cmp hash.
Let crefl := cmp_refl _ _ OK.
Let csym := cmp_sym _ _ OK.
Let ctrans := cmp_trans _ _ OK.
Let chash := cmp_hash _ _ OK.
Notation ht := (ht K V).
Notation hk := (hashk hash).
Notation inv := (@inv K V hash).
Notation Has := (@Has K V cmp).
Notation unique := (@unique K V cmp).

Record wf0 (t : ht) : Prop := {
  w_inv : inv (slots t);
  w_live : nelt t = N.of_nat (cnt live (slots t));
  w_dead : ndead t = N.of_nat (cnt deadb (slots t)) }.
Record wf (t : ht) : Prop := {
  w_0 :> wf0 t;
  w_room : (4 * (cnt live (slots t) + cnt deadb (slots t)) <= 3 * length (slots t))%nat }.

Lemma wf_free t : wf t -> (cnt used (slots t) < length (slots t))%nat.
Proof.
  intros W. rewrite used_cnt. pose proof (w_room _ W). pose proof (pow2_pos _ (i_pow _ _ (w_inv _ W))). lia.
Qed.

(* the write part of htput *)
Definition put1 (t : ht) (k : K) (v : V) (r : nat * bool) : ht :=
  mkHt (if snd r then nelt t else nelt t + 1)
       (match nth (fst r) (slots t) None with Some (_, _, _, true) => ndead t - 1 | _ => ndead t end)
       (upd (slots t) (fst r) (Some (hk k, k, v, false))).

Lemma put1_spec t k v : wf0 t -> (cnt used (slots t) < length (slots t))%nat ->
  exists r, put_find cmp (length (slots t)) (slots t) (hk k) k 0 = Some r /\
    pf_post hash cmp (slots t) k r /\
    wf0 (put1 t k v r) /\ length (slots (put1 t k v r)) = length (slots t) /\
    (cnt live (slots (put1 t k v r)) <= cnt live (slots t) + 1)%nat /\
    (cnt deadb (slots (put1 t k v r)) <= cnt deadb (slots t))%nat /\
    (forall x w, Has (slots (put1 t k v r)) x w -> (cmp k x = true /\ w = v) \/ Has (slots t) x w) /\
    (unique (slots t) -> ((forall w, ~ Has (slots t) k w) \/ cnt deadb (slots t) = 0%nat) ->
       unique (slots (put1 t k v r)) /\
       forall x w, Has (slots (put1 t k v r)) x w <-> (if cmp k x then w = v else Has (slots t) x w)).
Proof.
  intros W Hc.
  destruct (put_find_ok hash cmp crefl csym ctrans chash (slots t) k (i_pow _ _ (w_inv _ W)) Hc) as (r & E & P).
  exists r. split; [exact E|]. split; [exact P|].
  pose proof (pf_counts hash cmp crefl csym ctrans chash (slots t) k r k v (w_inv _ W) P) as (L & C1 & C2).
  pose proof (inv_upd_put hash cmp chash (slots t) k r k v (w_inv _ W) P (crefl k)) as I.
  unfold put_slot in *. unfold put1 at 1; cbn [slots].
  split; [|split; [|split; [|split; [|split]]]].
  - split; cbn [slots nelt ndead]; auto.
    + rewrite C1, (w_live _ W). destruct (snd r); lia.
    + pose proof (w_dead _ W). destruct (nth (fst r) (slots t) None) as [[[[? ?] ?] [|]]|]; cbn in C2; lia.
  - cbn [put1 slots]. auto.
  - cbn [put1 slots]. destruct (snd r); lia.
  - cbn [put1 slots]. lia.
  - cbn [put1 slots]. intros x w (j & h & k' & Ej & Cj). rewrite nth_upd in Ej.
    destruct (_ && _).
    + inversion Ej; subst. auto.
    + right. exists j, h, k'. auto.
  - intros U Habs. cbn [put1 slots].
    apply (put_effect hash cmp crefl csym ctrans chash (slots t) k r k v (w_inv _ W) U P (crefl k)).
    destruct (snd r) eqn:Sr; auto. right. destruct Habs as [Habs|Hnd]; auto.
    apply (pf_nodead_absent hash cmp chash (slots t) k r (w_inv _ W) P Sr).
    destruct (deadb _) eqn:D; auto. lia.
Qed.

Lemma htput_eq d t k v r : put_find cmp (length (slots t)) (slots t) (hk k) k 0 = Some r ->
  htput hash cmp d t k v =
    bind (if sz (put1 t k v r) <? nelt (put1 t k v r) * 2
          then match d with O => None | S d => grow (htput hash cmp d) (put1 t k v r) (length (slots (put1 t k v r)) * 2) end
          else Some (put1 t k v r)) (fun t2 =>
    if sz t2 <? ndead t2 * 4
    then match d with O => None | S d => grow (htput hash cmp d) t2 (length (slots t2)) end
    else Some t2).
Proof.
  intros E. destruct d; cbn [htput]; rewrite E; destruct r as [i c]; cbn [bind]; rewrite mkslot_hashk; reflexivity.
Qed.

(* inserting without needing to grow *)
Lemma htput_room d t k v : wf0 t ->
  (2 * (cnt live (slots t) + 1) <= length (slots t))%nat -> (cnt deadb (slots t) = 0)%nat ->
  exists r, pf_post hash cmp (slots t) k r /\ htput hash cmp d t k v = Some (put1 t k v r) /\
    wf0 (put1 t k v r) /\ length (slots (put1 t k v r)) = length (slots t) /\
    (cnt live (slots (put1 t k v r)) <= cnt live (slots t) + 1)%nat /\
    (cnt deadb (slots (put1 t k v r)) = 0)%nat /\
    (forall x w, Has (slots (put1 t k v r)) x w -> (cmp k x = true /\ w = v) \/ Has (slots t) x w) /\
    (unique (slots t) -> unique (slots (put1 t k v r)) /\
       forall x w, Has (slots (put1 t k v r)) x w <-> (if cmp k x then w = v else Has (slots t) x w)).
Proof.
  intros W H1 H2.
  destruct (put1_spec t k v W) as (r & E & P & W' & L & C1 & C2 & S1 & S2).
  { rewrite used_cnt. lia. }
  exists r. split; auto. split.
  - rewrite (htput_eq d t k v r E). unfold sz. rewrite (w_live _ W').
    set (t1 := put1 t k v r) in *.
    destruct (N.ltb_spec (N.of_nat (length (slots t1))) (N.of_nat (cnt live (slots t1)) * 2)); [lia|].
    cbn [bind]. rewrite (w_dead _ W').
    destruct (N.ltb_spec (N.of_nat (length (slots t1))) (N.of_nat (cnt deadb (slots t1)) * 4)); [lia|]. reflexivity.
  - repeat split; auto; try apply W'; try lia.
    + apply S2; auto.
    + apply S2; auto.
    + apply S2; auto.
Qed.

Definition HasL (es : list (K * V)) (x : K) (w : V) : Prop := exists k, In (k, w) es /\ cmp k x = true.

Lemma grow_fold d es : forall t, wf0 t -> (cnt deadb (slots t) = 0)%nat ->
  (2 * (cnt live (slots t) + length es) <= length (slots t))%nat ->
  exists t', fold_left (fun acc e => bind acc (fun t => htput hash cmp d t (fst e) (snd e))) es (Some t) = Some t' /\
    wf0 t' /\ (cnt deadb (slots t') = 0)%nat /\ length (slots t') = length (slots t) /\
    (cnt live (slots t') <= cnt live (slots t) + length es)%nat /\
    (forall x w, Has (slots t') x w -> Has (slots t) x w \/ HasL es x w) /\
    (unique (slots t) -> distinct cmp es -> (forall k v w, In (k, v) es -> ~ Has (slots t) k w) ->
      unique (slots t') /\ forall x w, Has (slots t') x w <-> Has (slots t) x w \/ HasL es x w).
Proof.
  induction es as [|[k v] es IH]; intros t W D R.
  - exists t. cbn [fold_left]. split; auto. split; auto. split; auto. split; auto. split; [lia|]. split; auto.
    intros U _ _. split; auto. intros x w. split; auto. intros [H|(k & [] & _)]; auto.
  - cbn [length] in R. cbn [fold_left bind fst snd].
    destruct (htput_room d t k v W) as (r & P & E & W' & L & C1 & C2 & S1 & S2); [lia|auto|].
    rewrite E. destruct (IH (put1 t k v r)) as (t' & E' & W2 & D2 & L2 & C3 & S3 & S4); auto; [lia|].
    exists t'. split; auto. split; auto. split; auto. split; [lia|]. split; [cbn [length]; lia|]. split.
    + intros x w H. apply S3 in H as [H|(k' & Hin & C)].
      * apply S1 in H as [[Hk ->]|H]; auto. right. exists k. split; [left; auto|auto].
      * right. exists k'. split; [right; auto|auto].
    + intros U Dis Hab. destruct (S2 U) as [U1 E1].
      inversion Dis as [|? ? F Dis']; subst.
      destruct S4 as [U2 E2]; auto.
      { intros k1 v1 w Hin HH. apply E1 in HH. rewrite Forall_forall in F. specialize (F _ Hin). cbn in F.
        rewrite F in HH. eapply Hab; [right; eauto|eauto]. }
      split; auto. intros x w. rewrite E2, E1. split.
      * intros [H|(k' & Hin & C)].
        { destruct (cmp k x) eqn:C; auto. subst w. right. exists k. split; [left; auto|auto]. }
        right. exists k'. split; [right; auto|auto].
      * intros [H|(k' & [Hin|Hin] & C)].
        { left. destruct (cmp k x) eqn:C; auto. exfalso. apply (Hab k v w); [left; auto|].
          destruct H as (j & h & k' & Ej & Cj). exists j, h, k'. split; auto. apply ctrans with x; auto. now rewrite csym. }
        { inversion Hin; subst. left. now rewrite C. }
        { right. exists k'. auto. }
Qed.

Lemma empty_wf0 n : pow2 n -> wf0 (@empty K V n).
Proof.
  intros H. split; cbn [empty slots nelt ndead].
  - now apply inv_empty.
  - rewrite cnt_repeat; auto.
  - rewrite cnt_repeat; auto.
Qed.

Lemma grow_spec d t n : wf0 t -> pow2 n -> (2 * cnt live (slots t) <= n)%nat ->
  exists t', grow (htput hash cmp d) t n = Some t' /\ wf0 t' /\ (cnt deadb (slots t') = 0)%nat /\
    length (slots t') = n /\ (cnt live (slots t') <= cnt live (slots t))%nat /\
    (forall x w, Has (slots t') x w -> Has (slots t) x w) /\
    (unique (slots t) -> unique (slots t') /\ forall x w, Has (slots t') x w <-> Has (slots t) x w).
Proof.
  intros W Hp Hn. unfold grow.
  destruct (grow_fold d (entries (slots t)) (empty n)) as (t' & E & W' & D & L & C & S1 & S2).
  - now apply empty_wf0.
  - cbn [empty slots]. now rewrite cnt_repeat.
  - cbn [empty slots]. rewrite cnt_repeat, repeat_length, entries_length by auto. lia.
  - exists t'. cbn [empty slots] in *. rewrite cnt_repeat, entries_length in C by auto. rewrite repeat_length in L.
    split; auto. split; auto. split; auto. split; auto. split; [lia|].
    assert (HL : forall x w, HasL (entries (slots t)) x w <-> Has (slots t) x w).
    { intros x w. split.
      - intros (k & Hin & Ck). apply in_entries in Hin as (j & h & Ej). exists j, h, k. auto.
      - intros (j & h & k & Ej & Ck). exists k. split; auto. apply in_entries. eauto. }
    split.
    + intros x w H. apply S1 in H as [H|H]; [destruct (has_empty _ _ _ _ H)|now apply HL].
    + intros U. destruct S2 as [U2 E2].
      * apply unique_empty.
      * now apply (entries_distinct hash cmp crefl csym ctrans chash).
      * intros k v w _ H. destruct (has_empty _ _ _ _ H).
      * split; auto. intros x w. rewrite E2, HL. split; [|auto].
        intros [H|H]; auto. destruct (has_empty _ _ _ _ H).
Qed.

(* htput: always succeeds on a well-formed table *)
Lemma htput_spec t k v : wf t ->
  exists t', htput hash cmp 2 t k v = Some t' /\ wf t' /\
    (cnt deadb (slots t') <= cnt deadb (slots t))%nat /\
    (forall x w, Has (slots t') x w -> (cmp k x = true /\ w = v) \/ Has (slots t) x w) /\
    (unique (slots t) -> ((forall w, ~ Has (slots t) k w) \/ cnt deadb (slots t) = 0%nat) ->
       unique (slots t') /\
       forall x w, Has (slots t') x w <-> (if cmp k x then w = v else Has (slots t) x w)).
Proof.
  intros W.
  destruct (put1_spec t k v W (wf_free _ W)) as (r & E & P & W' & L & C1 & C2 & S1 & S2).
  rewrite (htput_eq 2 t k v r E). set (t1 := put1 t k v r) in *.
  pose proof (i_pow _ _ (w_inv _ W')) as Hp.
  unfold sz. rewrite (w_live _ W').
  destruct (N.ltb_spec (N.of_nat (length (slots t1))) (N.of_nat (cnt live (slots t1)) * 2)) as [G|G].
  - destruct (grow_spec 1 t1 (length (slots t1) * 2) W' (pow2_double _ Hp)) as (t2 & E2 & W2 & D2 & L2 & C3 & A1 & A2).
    { pose proof (cnt_le live (slots t1)). lia. }
    rewrite E2. cbn [bind]. rewrite (w_dead _ W2), D2. cbn [N.of_nat N.mul].
    destruct (N.ltb_spec (N.of_nat (length (slots t2))) 0); [lia|].
    exists t2. split; auto. split; [split; auto|].
    { rewrite D2, L2. pose proof (cnt_le live (slots t1)). lia. }
    split; [lia|]. split.
    + intros x w H1. apply S1, A1, H1.
    + intros U Hab. destruct (S2 U Hab) as [U1 E1]. destruct (A2 U1) as [U3 E3]. split; auto.
      intros x w. now rewrite E3, E1.
  - cbn [bind]. rewrite (w_dead _ W').
    destruct (N.ltb_spec (N.of_nat (length (slots t1))) (N.of_nat (cnt deadb (slots t1)) * 4)) as [G2|G2].
    + destruct (grow_spec 1 t1 (length (slots t1)) W' Hp) as (t2 & E2 & W2 & D2 & L2 & C3 & A1 & A2); [lia|].
      exists t2. split; auto. split; [split; auto; lia|]. split; [lia|]. split.
      * intros x w H1. apply S1, A1, H1.
      * intros U Hab. destruct (S2 U Hab) as [U1 E1]. destruct (A2 U1) as [U3 E3]. split; auto.
        intros x w. now rewrite E3, E1.
    + exists t1. split; auto. split; [split; auto; lia|]. split; [lia|]. split; auto.
Qed.

(* htidx is the plain lookup loop *)
Lemma htidx_find fuel t k di : inv t ->
  htidx_loop cmp fuel t (hk k) k di = find_loop cmp fuel t (hk k) k di.
Proof.
  intros I. revert di; induction fuel as [|f IH]; intros di; cbn [htidx_loop find_loop]; auto.
  destruct (at_ t (hk k) di) as [[[[h' k'] v'] d]|] eqn:E; auto.
  assert (Hh : h' = hk k') by (unfold at_ in E; eapply I; eauto).
  destruct d, (N.eqb_spec h' (hk k)) as [Heq|Hne]; cbn [negb andb orb]; auto.
  - destruct (cmp k' k) eqn:C; cbn [negb]; auto. exfalso. apply Hne. rewrite Hh. now apply (hk_cmp hash cmp chash).
  - destruct (cmp k' k); cbn [negb]; auto.
Qed.

Lemma htidx_spec t k : wf t -> exists r, htidx hash cmp t k = Some r /\ find_post hash cmp (slots t) k r.
Proof.
  intros W. unfold htidx. rewrite htidx_find by apply W.
  apply (find_ok hash cmp crefl csym ctrans chash); [apply W|now apply wf_free].
Qed.

Lemma htget_spec t k : wf t -> unique (slots t) ->
  exists r, htget hash cmp t k = Some r /\ forall v, r = Some v <-> Has (slots t) k v.
Proof.
  intros W U. destruct (htidx_spec t k W) as (r & E & P). unfold htget. rewrite E. cbn [bind].
  destruct r as [i|]; cbn in P.
  - destruct P as (k' & v & Ei & C). rewrite Ei. exists (Some v). split; auto. intros w. split.
    + intros H; inversion H; subst. exists i, (hk k), k'. auto.
    + intros (j & h & k2 & Ej & C2). f_equal. assert (i = j); [|congruence].
      apply (U _ _ _ _ _ _ _ _ Ei Ej). apply ctrans with k; auto. now rewrite csym.
  - exists None. split; auto. intros w; split; [discriminate|]. intros H. destruct (P _ H).
Qed.

Lemma htget_sound t k v : wf t -> htget hash cmp t k = Some (Some v) -> Has (slots t) k v.
Proof.
  intros W. destruct (htidx_spec t k W) as (r & E & P). unfold htget. rewrite E. cbn [bind].
  destruct r as [i|]; cbn in P; [|discriminate].
  destruct P as (k' & w & Ei & C). rewrite Ei. intros H; inversion H; subst. exists i, (hk k), k'. auto.
Qed.

Lemma htget_total t k : wf t -> exists r, htget hash cmp t k = Some r.
Proof.
  intros W. destruct (htidx_spec t k W) as (r & E & P). unfold htget. rewrite E. cbn [bind].
  destruct r as [i|]; eauto. destruct P as (k' & v & Ei & C). rewrite Ei. eauto.
Qed.

Lemma hthas_spec t k : wf t ->
  exists b, hthas hash cmp t k = Some b /\ (b = true <-> exists v, Has (slots t) k v).
Proof.
  intros W. destruct (htidx_spec t k W) as (r & E & P). unfold hthas. rewrite E. cbn [bind].
  destruct r as [i|]; cbn in P; eexists; split; eauto.
  - split; auto. intros _. destruct P as (k' & v & Ei & C). exists v, i, (hk k), k'. auto.
  - split; [discriminate|]. intros [v H]. destruct (P _ H).
Qed.

Lemma htdel_spec t k : wf t ->
  exists t', htdel hash cmp t k = Some t' /\ wf t' /\
    ((forall w, ~ Has (slots t) k w) -> t' = t) /\
    (forall x w, Has (slots t') x w -> Has (slots t) x w) /\
    (unique (slots t) -> unique (slots t') /\
       forall x w, Has (slots t') x w <-> (cmp k x = false /\ Has (slots t) x w)).
Proof.
  intros W. destruct (htidx_spec t k W) as (r & E & P). unfold htdel. rewrite E. cbn [bind].
  destruct r as [i|]; cbn in P.
  - destruct P as (k' & v & Ei & C). rewrite Ei.
    destruct (kill_spec hash cmp crefl csym ctrans chash (slots t) i (hk k) k' v (w_inv _ W) Ei) as (I & U' & L & C1 & C2).
    eexists; split; [reflexivity|]. cbn [slots nelt ndead].
    assert (Hc : forall x, cmp k' x = cmp k x).
    { intros x. destruct (cmp k' x) eqn:A, (cmp k x) eqn:B; auto.
      - assert (cmp k x = true); [|congruence]. apply ctrans with k'; auto. now rewrite csym.
      - assert (cmp k' x = true); [|congruence]. now apply ctrans with k. }
    split; [|split; [|split]].
    + split; [split|]; cbn [slots nelt ndead]; auto.
      * rewrite (w_live _ W). lia.
      * rewrite (w_dead _ W). lia.
      * pose proof (w_room _ W). lia.
    + intros Hab. exfalso. apply (Hab v). exists i, (hk k), k'. auto.
    + intros x w (j & h & k2 & Ej & C3). rewrite nth_upd in Ej. destruct (_ && _); [discriminate|]. exists j, h, k2. auto.
    + intros U. destruct (U' U) as [U1 E1]. split; auto. intros x w. rewrite E1, Hc. tauto.
  - exists t. split; auto. split; auto. split; auto. split; auto. intros U. split; auto.
    intros x w. split; [|tauto]. intros H. split; auto. destruct (cmp k x) eqn:C; auto. exfalso.
    destruct H as (j & h & k2 & Ej & C3). apply (P w). exists j, h, k2. split; auto. apply ctrans with x; auto. now rewrite csym.
Qed.

Lemma mkht_wf : wf (@mkht K V).
Proof.
  split.
  - apply empty_wf0. exists 4. reflexivity.
  - cbn [mkht empty slots]. rewrite !cnt_repeat by auto. lia.
Qed.

Lemma run_app os (t : ht) o : run hash cmp os = Some t -> run hash cmp (os ++ [o]) = step hash cmp t o.
Proof. intros H. unfold run in *. rewrite fold_left_app, H. reflexivity. Qed.

Lemma step_wf t o : wf t -> exists t', step hash cmp t o = Some t' /\ wf t'.
Proof.
  intros W. destruct o as [k v|k]; cbn [step].
  - destruct (htput_spec t k v W) as (t' & E & W' & _). eauto.
  - destruct (htdel_spec t k W) as (t' & E & W' & _). eauto.
Qed.

Lemma run_wf (os : list (op K V)) : exists t, run hash cmp os = Some t /\ wf t.
Proof.
  induction os as [|o os IH] using rev_ind.
  - exists mkht. split; auto using mkht_wf.
  - destruct IH as (t & E & W). destruct (step_wf t o W) as (t' & E' & W'). exists t'. split; auto.
    now rewrite (run_app os t o E).
Qed.

(* soundness for every history *)
Lemma run_sound os (t : ht) : run hash cmp os = Some t -> forall x w, Has (slots t) x w ->
  exists k, In (Put k w) os /\ cmp k x = true.
Proof.
  revert t; induction os as [|o os IH] using rev_ind; intros t' E x w H.
  - inversion E; subst. cbn [mkht empty slots] in H. destruct (has_empty _ _ _ _ H).
  - destruct (run_wf os) as (t & E1 & W). rewrite (run_app os t o E1) in E.
    assert (HH : (exists k, o = Put k w /\ cmp k x = true) \/ Has (slots t) x w).
    { destruct o as [k v|k]; cbn [step] in E.
      - destruct (htput_spec t k v W) as (t2 & E2 & W2 & _ & S & _). rewrite E2 in E; inversion E; subst.
        apply S in H as [[C ->]|H]; eauto.
      - destruct (htdel_spec t k W) as (t2 & E2 & W2 & _ & S & _). rewrite E2 in E; inversion E; subst. auto. }
    destruct HH as [(k & -> & C)|HH].
    + exists k. split; auto. apply in_or_app; right; left; auto.
    + destruct (IH t E1 x w HH) as (k & Hin & C). exists k. split; auto. apply in_or_app; auto.
Qed.

(* exactness for safe histories *)
Definition Rep (t : ht) (m : K -> option V) : Prop := unique (slots t) /\ forall x w, Has (slots t) x w <-> m x = Some w.

Lemma Rep_step t m o (deleted : bool) : wf t -> Rep t m -> (deleted = false -> cnt deadb (slots t) = 0%nat) ->
  (match o with Put k v => deleted = true -> m k = None | Del _ => True end) ->
  exists t', step hash cmp t o = Some t' /\ wf t' /\ Rep t' (spec_step cmp m o) /\
    (match o with Put _ _ => deleted | Del k => deleted || match m k with Some _ => true | None => false end end = false ->
     cnt deadb (slots t') = 0%nat).
Proof.
  intros W [U R] Hd Hs. destruct o as [k v|k]; cbn [step spec_step].
  - destruct (htput_spec t k v W) as (t' & E & W' & D & _ & S). exists t'. split; auto. split; auto.
    destruct S as [U' E']; auto.
    { destruct deleted; auto. left. intros w H. apply R in H. rewrite Hs in H by auto. discriminate. }
    split; [|intros Hf; specialize (Hd Hf); lia]. split; auto. intros x w. rewrite E'. destruct (cmp k x); [|apply R].
    split; [intros ->; auto|congruence].
  - destruct (htdel_spec t k W) as (t' & E & W' & Habs & _ & S). exists t'. split; auto. split; auto.
    destruct (S U) as [U' E']. split; [split; auto|].
    + intros x w. rewrite E', R. destruct (cmp k x); split; try discriminate; try tauto. intros [? _]; discriminate.
    + intros Hf. apply orb_false_iff in Hf as [Hf1 Hf2]. rewrite Habs; auto.
      intros w H. apply R in H. rewrite H in Hf2. discriminate.
Qed.

Lemma run_Rep (os : list (op K V)) : safe cmp os -> exists t, run hash cmp os = Some t /\ wf t /\ Rep t (spec cmp os).
Proof.
  unfold safe, run, spec.
  assert (G : forall os t m (deleted : bool), wf t -> Rep t m -> (deleted = false -> cnt deadb (slots t) = 0%nat) ->
    safe_from cmp m deleted os ->
    exists t', fold_left (fun acc o => bind acc (fun t => step hash cmp t o)) os (Some t) = Some t' /\ wf t' /\
      Rep t' (fold_left (spec_step cmp) os m)).
  { clear os. induction os as [|o os IH]; intros t m deleted W R Hd S.
    - exists t. auto.
    - destruct (Rep_step t m o deleted W R Hd) as (t1 & E1 & W1 & R1 & D1).
      { destruct o; auto. apply S. }
      cbn [fold_left bind]. rewrite E1. destruct o as [k v|k]; cbn [safe_from] in S.
      + apply IH with (deleted := deleted); auto. apply S.
      + eapply IH; eauto. }
  apply G with (t := mkht); auto using mkht_wf.
  - split.
    + apply unique_empty.
    + intros x w. split; [|discriminate]. intros H. destruct (has_empty _ _ _ _ H).
Qed.

Lemma htkeys_spec t m : wf t -> Rep t m ->
  snd (htkeys t) = N.of_nat (length (fst (htkeys t))) /\
  ForallOrdPairs (fun a b => cmp a b = false) (fst (htkeys t)) /\
  (forall x, (exists k, In k (fst (htkeys t)) /\ cmp k x = true) <-> m x <> None).
Proof.
  intros W [U R]. unfold htkeys; cbn [fst snd]. split; [|split].
  - rewrite map_length, entries_length. apply W.
  - pose proof (entries_distinct hash cmp crefl csym ctrans chash _ U) as D. unfold distinct in D.
    induction D as [|a l F D IH]; cbn; constructor; auto.
    apply Forall_forall. intros y Hy. apply in_map_iff in Hy as (b & <- & Hb). rewrite Forall_forall in F; auto.
  - intros x. split.
    + intros (k & Hin & C) Hm. apply in_map_iff in Hin as ((k' & v) & Ek & Hin). cbn in Ek; subst k'.
      apply in_entries in Hin as (j & h & Ej). assert (H : m x = Some v); [|congruence]. apply R. exists j, h, k. auto.
    + intros Hm. destruct (m x) as [v|] eqn:E; [|congruence]. apply R in E as (j & h & k & Ej & C).
      exists k. split; auto. apply in_map_iff. exists (k, v). split; auto. apply in_entries. eauto.
Qed.

Lemma safe_main (os : list (op K V)) : safe cmp os -> exists t, run hash cmp os = Some t /\
  (forall k, htget hash cmp t k = Some (spec cmp os k)) /\
  (forall k, hthas hash cmp t k = Some (match spec cmp os k with Some _ => true | None => false end)) /\
  (let (keys, n) := htkeys t in n = N.of_nat (length keys) /\
     ForallOrdPairs (fun a b => cmp a b = false) keys /\
     forall x, (exists k, In k keys /\ cmp k x = true) <-> spec cmp os x <> None).
Proof.
  intros S. destruct (run_Rep os S) as (t & E & W & R). exists t. split; auto. split; [|split].
  - intros k. destruct (htget_spec t k W (proj1 R)) as (r & Er & Hr). rewrite Er. f_equal.
    destruct r as [v|].
    + symmetry. apply R, Hr. reflexivity.
    + destruct (spec cmp os k) as [v|] eqn:Es; auto. apply R, Hr in Es. discriminate.
  - intros k. destruct (hthas_spec t k W) as (b & Eb & Hb). rewrite Eb. f_equal.
    destruct (spec cmp os k) as [v|] eqn:Es.
    + apply Hb. exists v. now apply R.
    + destruct b; auto. destruct (proj1 Hb eq_refl) as [v Hv]. apply R in Hv. congruence.
  - pose proof (htkeys_spec t _ W R) as H. destruct (htkeys t). exact H.
Qed.

(* histories without deletes are safe *)
Lemma nodel_safe (os : list (op K V)) : (forall k, ~ In (Del k) os) -> safe cmp os.
Proof.
  unfold safe. generalize (fun _ : K => @None V). induction os as [|o os IH]; intros m H; cbn; auto.
  destruct o as [k v|k].
  - split; [discriminate|]. apply IH. intros k' Hin. apply (H k'). right; auto.
  - exfalso. apply (H k). left; auto.
Qed.

Lemma total_main (os : list (op K V)) : exists t, run hash cmp os = Some t /\
  forall k, htget hash cmp t k <> None /\ hthas hash cmp t k <> None /\ htdel hash cmp t k <> None /\
    (forall v, htput hash cmp 2 t k v <> None) /\ In None (slots t).
Proof.
  destruct (run_wf os) as (t & E & W). exists t. split; auto. intros k.
  destruct (htget_total t k W) as (r & Er). destruct (hthas_spec t k W) as (b & Eb & _).
  destruct (htdel_spec t k W) as (t1 & E1 & _).
  repeat split; try congruence.
  - intros v. destruct (htput_spec t k v W) as (t2 & E2 & _). congruence.
  - destruct (free_pos (slots t) 0 (i_pow _ _ (w_inv _ W)) (wf_free _ W)) as (d & _ & Hd).
    unfold at_ in Hd. rewrite <- Hd. apply nth_In. apply pos_lt, (i_pow _ _ (w_inv _ W)).
Qed.
End P.
