(* Graph results restated for executions of the flattened body. *)
From Verif Require Import Base Cfg_Model Cfg_Spec Cfg_Reach Cfg_Check Cfg_Build Cfg_Ret.

Lemma freaches_runs noret p d v pc : FReaches noret p d v pc -> Runs noret p pc.
Proof. induction 1; eapply run_step; eauto. Qed.
Lemma freaches_src noret p d v pc : FReaches noret p d v pc -> exists q s, Runs noret p q /\ nth_error p q = Some (IEx s) /\ enid s = d /\ Assigns s v.
Proof. induction 1; eauto 8. Qed.

Lemma flat_sound fuel fuel' noret p g ins outs :
  ~ In IDecl p -> NoDup (labels p) -> body_distinct p -> body_dont_alias p ->
  mkcfg fuel noret p = Some (Some g) -> reaching fuel' g = Some (ins, outs) ->
  exists loc : nat -> point,
    (forall pc e, Runs noret p pc -> nth_error p pc = Some (IEx e) -> stmt_at g (loc pc) e) /\
    (forall d v pc, FReaches noret p d v pc -> snd (loc pc) = 0 -> bshas (nth (fst (loc pc)) ins 0%N) d = true).
Proof.
  intros Hnd Hl BD BA E Hr. destruct (freaches_reaches fuel noret p g Hnd Hl E) as (loc & H1 & H2).
  destruct (body_graph_ok _ _ _ _ Hnd E BD BA) as [Dn Al].
  exists loc. split; [exact H1|]. intros d v pc F Z. apply H2 in F.
  destruct (loc pc) as [i k]. cbn [fst snd] in *. subst k.
  destruct (reaches_sound g Dn Al ins outs (iterate_stable _ _ _ _ _ _ _ Hr) d v (i, 0) F) as [_ HP].
  unfold at_point in HP. cbn [fst snd firstn fold_left] in HP. destruct (blk g i); auto. rewrite has_0 in HP. discriminate.
Qed.

Lemma flat_no_undef isconst fuel fuel' noret p g ins outs :
  ~ In IDecl p -> NoDup (labels p) -> body_distinct p -> body_dont_alias p ->
  mkcfg fuel noret p = Some (Some g) -> reaching fuel' g = Some (ins, outs) -> checkreach isconst g ins = true ->
  forall u v pc s, eop u = Oundef -> In (IEx u) p -> Assigns u v -> FReaches noret p (enid u) v pc ->
    nth_error p pc = Some (IEx s) -> eop s <> Oundef -> ReadsChecked v s -> isconst v = false ->
  exists i k k' s', stmt_at g (i, k) s /\ k' <= k /\ stmt_at g (i, k') s' /\ eop s' <> Oundef /\ Assigns s' v.
Proof.
  intros Hnd Hl BD BA E Hr C u v pc s Ou Iu Au F Hs Os R Ic.
  destruct (freaches_reaches fuel noret p g Hnd Hl E) as (loc & H1 & H2).
  destruct (body_graph_ok _ _ _ _ Hnd E BD BA) as [Dn Al].
  pose proof (H1 _ _ (freaches_runs _ _ _ _ _ F) Hs) as At. pose proof (H2 _ _ _ F) as Re. destruct (loc pc) as [i k].
  assert (Iu' : In u (stmts g)).
  { destruct (freaches_src _ _ _ _ _ F) as (q & s0 & Rq & Hq & E0 & A0).
    assert (u = s0) by (apply (BD u v Iu Au); [eapply nth_error_In; eauto|auto]). subst s0. eapply stmt_at_in. eapply H1; eauto. }
  destruct (accept_no_undef isconst g fuel' ins outs Dn Al Hr i k s v u C At Os R Ic Iu' Ou Au Re) as (k' & s' & Hk & At' & O' & A').
  exists i, k, k', s'. auto.
Qed.
