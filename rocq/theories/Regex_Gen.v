(* The program generated for a pattern goes from its start to its end exactly along the matches of the pattern. *)
From Verif Require Import Base Regex_Model Regex_Spec Regex_Comp Regex_Rng.
Open Scope nat_scope.

(* the patterns for which code is generated *)
Fixpoint okpat (t : ast) : Prop :=
  match t with
  | Alt a b | Cat a b => okpat a /\ okpat b
  | Star a _ | Plus a _ | Quest a => okpat a
  | Cap m a => m < 16 /\ okpat a
  | Chr c => (c < 0x10000)%N
  | Ranges rl => rl <> [] /\ Forall (fun r => (fst r <= snd r)%N /\ (snd r < 0x200000)%N) rl
  | _ => True
  end.

Lemma genchar_some c : (c < 0x10000)%N -> genchar c = Some (map Ibyte (Utf_Spec.utf8 c)).
Proof.
  intros C. unfold genchar. rewrite enc_utf8 by (unfold charok; lia). replace (length (Utf_Spec.utf8 c) <? 4) with true; [auto|].
  symmetry. apply Nat.ltb_lt. unfold Utf_Spec.utf8. repeat match goal with |- context [(?a <? ?b)%N] => destruct (N.ltb_spec a b) end; cbn; lia.
Qed.
Lemma gen_some t : okpat t -> forall pc, exists c, gen t pc = Some c.
Proof.
  induction t; cbn; intros O pc.
  - destruct O as [Oa Ob]. destruct (IHt1 Oa (pc + 1)) as (ca & ->). destruct (IHt2 Ob (pc + 1 + length ca + 1)) as (cb & ->). eauto.
  - destruct O as [Oa Ob]. destruct (IHt1 Oa pc) as (ca & ->). destruct (IHt2 Ob (pc + length ca)) as (cb & ->). eauto.
  - destruct (IHt O (pc + 1)) as (ca & ->). eauto.
  - destruct (IHt O pc) as (ca & ->). destruct (IHt O (pc + length ca + 1)) as (cb & ->). eauto.
  - destruct (IHt O (pc + 1)) as (ca & ->). eauto.
  - rewrite genchar_some by auto. eauto.
  - apply genranges_some. destruct O as [N A]. split; auto.
  - destruct O as [M O]. destruct (IHt O (pc + 1)) as (ca & ->). eauto.
  - eauto.
  - eauto.
  - eauto.
  - eauto.
Qed.

Section Machine.
Variable isword : list N -> bool.
Variable P : list inst.
Variable s : list N.
Notation path := (path isword P s).
Notation reach := (reach isword P s).
Notation placed := (placed P).
Notation matches := (matches isword bytecls s).

Lemma matches_le t i g j g' : matches t i g j g' -> i <= length s -> i <= j <= length s.
Proof. induction 1; intros L; try lia; try (apply stands_le in H; lia). apply stands_le in H0. lia. Qed.

Lemma star_reach a r ca pc : gen a (pc + 1) = Some ca -> placed pc (starcode r pc ca) ->
  (forall i g j g', matches a i g j g' -> reach (pc + 1, i, g) (pc + 1 + length ca, j, g')) ->
  forall t i g j g', matches t i g j g' -> t = Star a r -> reach (pc, i, g) (pc + length (starcode r pc ca), j, g').
Proof.
  intros G Pl Body. assert (Ls : length (starcode r pc ca) = length ca + 2) by (unfold starcode; destruct r; cbn [length]; rewrite app_length; cbn; lia).
  unfold starcode in Pl. assert (Pl' : nth_error P pc = Some (if r then Ifork (pc + 1 + length ca + 1) (pc + 1) else Ifork (pc + 1) (pc + 1 + length ca + 1)) /\ placed (pc + 1) (ca ++ [Ijmp pc])) by (apply placed_cons; exact Pl).
  clear Pl. destruct Pl' as [Pf Pl]. apply placed_app in Pl as [Pa Pj]. apply placed_cons in Pj as [Pj _].
  assert (Out : forall i g, reach (pc, i, g) (pc + length (starcode r pc ca), i, g)).
  { intros i g. replace (pc + length (starcode r pc ca)) with (pc + 1 + length ca + 1) by lia. apply reach_step. destruct r; [eapply c_forkl|eapply c_forkr]; eauto. }
  assert (In : forall i g, reach (pc, i, g) (pc + 1, i, g)). { intros i g. apply reach_step. destruct r; [eapply c_forkr|eapply c_forkl]; eauto. }
  induction 1; intros E; inversion E; subst; [apply Out|].
  eapply reach_trans; [apply In|]. eapply reach_trans; [apply Body; eauto|]. eapply reach_trans; [apply reach_step; eapply c_jmp; eauto|]. auto.
Qed.

Lemma gen_complete t : okpat t -> forall pc c i g j g', gen t pc = Some c -> placed pc c -> matches t i g j g' -> reach (pc, i, g) (pc + length c, j, g').
Proof.
  induction t as [a IHa b IHb|a IHa b IHb|a IHa r|a IHa r|a IHa|ch|rl|m a IHa| | | |]; cbn; intros O pc c i g j g' G Pl M.
  - destruct O as [Oa Ob]. destruct (gen a (pc + 1)) as [ca|] eqn:Ga; [|discriminate]. destruct (gen b (pc + 1 + length ca + 1)) as [cb|] eqn:Gb; [|discriminate]. injection G as <-.
    apply placed_cons in Pl as [Pf Pl]. apply placed_app in Pl as [Pa Pl]. apply placed_cons in Pl as [Pj Pb].
    cbn [length]. rewrite app_length. cbn [length]. replace (pc + S (length ca + S (length cb))) with (pc + 1 + length ca + 1 + length cb) by lia.
    inversion M; subst.
    + eapply reach_trans; [apply reach_step; eapply c_forkl; eauto|]. eapply reach_trans; [eapply IHa; eauto|]. apply reach_step. eapply c_jmp; eauto.
    + eapply reach_trans; [apply reach_step; eapply c_forkr; eauto|]. eapply IHb; eauto.
  - destruct O as [Oa Ob]. destruct (gen a pc) as [ca|] eqn:Ga; [|discriminate]. destruct (gen b (pc + length ca)) as [cb|] eqn:Gb; [|discriminate]. injection G as <-.
    apply placed_app in Pl as [Pa Pb]. rewrite app_length, Nat.add_assoc. inversion M; subst. eapply reach_trans; [eapply IHa; eauto|eapply IHb; eauto].
  - destruct (gen a (pc + 1)) as [ca|] eqn:Ga; [|discriminate]. injection G as <-. eapply star_reach; eauto. intros. eapply IHa; eauto.
    unfold starcode in Pl. apply placed_cons in Pl as [_ Pl]. apply placed_app in Pl as [Pa _]. exact Pa.
  - destruct (gen a pc) as [ca|] eqn:Ga; [|discriminate]. destruct (gen a (pc + length ca + 1)) as [cb|] eqn:Gb; [|discriminate]. injection G as <-.
    apply placed_app in Pl as [Pa Pb]. rewrite app_length, Nat.add_assoc. inversion M; subst. eapply reach_trans; [eapply IHa; eauto|].
    eapply star_reach; eauto. intros. eapply IHa; eauto. unfold starcode in Pb. apply placed_cons in Pb as [_ Pl]. apply placed_app in Pl as [Pl _]. exact Pl.
  - destruct (gen a (pc + 1)) as [ca|] eqn:Ga; [|discriminate]. injection G as <-. apply placed_cons in Pl as [Pf Pa]. cbn [length].
    replace (pc + S (length ca)) with (pc + 1 + length ca) by lia. inversion M; subst.
    + apply reach_step. eapply c_forkr; eauto.
    + eapply reach_trans; [apply reach_step; eapply c_forkl; eauto|]. eapply IHa; eauto.
  - rewrite genchar_some in G by auto. injection G as <-. inversion M; subst. rewrite map_length. apply bytes_reach; auto.
  - inversion M; subst. eapply ranges_reach; eauto.
  - destruct O as [Om O]. destruct (gen a (pc + 1)) as [ca|] eqn:Ga; [|discriminate]. injection G as <-.
    apply placed_cons in Pl as [Pf Pl]. apply placed_app in Pl as [Pa Pl]. apply placed_cons in Pl as [Pr _].
    cbn [length]. rewrite app_length. cbn [length]. replace (pc + S (length ca + 1)) with (pc + 1 + length ca + 1) by lia. inversion M; subst.
    eapply reach_trans; [apply reach_step; eapply c_lbra; eauto|]. eapply reach_trans; [eapply IHa; eauto|]. apply reach_step. eapply c_rbra; eauto.
  - injection G as <-. apply placed_cons in Pl as [Pf _]. inversion M; subst. apply reach_step. eapply c_bol; eauto.
  - injection G as <-. apply placed_cons in Pl as [Pf _]. inversion M; subst. apply reach_step. eapply c_eol; eauto.
  - injection G as <-. apply placed_cons in Pl as [Pf _]. inversion M; subst. apply reach_step. eapply c_bow; eauto.
  - injection G as <-. apply placed_cons in Pl as [Pf _]. inversion M; subst. apply reach_step. eapply c_eow; eauto.
Qed.

(* a path out of the code of a pattern goes through a match *)
Definition exits (t : ast) (pc : nat) (c : list inst) : Prop := forall n i g F j g', i <= length s -> path n (pc, i, g) (F, j, g') -> ~ (pc <= F < pc + length c) ->
  exists m k g1, m <= n /\ matches t i g k g1 /\ k <= length s /\ path m (pc + length c, k, g1) (F, j, g').

Lemma star_exits a r ca pc : placed pc (starcode r pc ca) -> exits a (pc + 1) ca -> exits (Star a r) pc (starcode r pc ca).
Proof.
  intros Pl Body. assert (Ls : length (starcode r pc ca) = length ca + 2) by (unfold starcode; destruct r; cbn [length]; rewrite app_length; cbn; lia).
  unfold starcode in Pl. assert (Pl' : nth_error P pc = Some (if r then Ifork (pc + 1 + length ca + 1) (pc + 1) else Ifork (pc + 1) (pc + 1 + length ca + 1)) /\ placed (pc + 1) (ca ++ [Ijmp pc])) by (apply placed_cons; exact Pl).
  clear Pl. destruct Pl' as [Pf Pl]. apply placed_app in Pl as [Pa Pj]. apply placed_cons in Pj as [Pj _]. unfold exits. rewrite Ls.
  intros n. induction n as [n IHn] using lt_wf_ind. intros i g F j g' Li Pth Nf.
  apply path_first in Pth as (n' & c1 & -> & St & Pth); [|lia].
  assert (c1 = (pc + 1, i, g) \/ c1 = (pc + 1 + length ca + 1, i, g)) as [-> | ->].
  { destruct r; destruct (step_fork _ _ _ _ _ _ _ _ _ Pf St) as [-> | ->]; auto. }
  - destruct (Body _ _ _ _ _ _ Li Pth) as (m & k & g1 & Mn & M & Lk & Pm); [lia|].
    apply path_first in Pm as (m' & c2 & -> & St2 & Pm); [|lia]. rewrite (step_jmp _ _ _ _ _ _ _ _ Pj St2) in Pm.
    destruct (IHn m' ltac:(lia) _ _ _ _ _ Lk Pm Nf) as (m2 & k2 & g2 & Mn2 & M2 & Lk2 & Pm2). exists m2, k2, g2. split; [lia|]. split; [eapply m_star; eauto|]. auto.
  - exists n', i, g. split; [lia|]. split; [constructor|]. split; auto. replace (pc + (length ca + 2)) with (pc + 1 + length ca + 1) by lia. auto.
Qed.

Lemma gen_sound t : okpat t -> forall pc c, gen t pc = Some c -> placed pc c -> exits t pc c.
Proof.
  induction t as [a IHa b IHb|a IHa b IHb|a IHa r|a IHa r|a IHa|ch|rl|m a IHa| | | |]; cbn; intros O pc c G Pl.
  - destruct O as [Oa Ob]. destruct (gen a (pc + 1)) as [ca|] eqn:Ga; [|discriminate]. destruct (gen b (pc + 1 + length ca + 1)) as [cb|] eqn:Gb; [|discriminate]. injection G as <-.
    apply placed_cons in Pl as [Pf Pl]. apply placed_app in Pl as [Pa Pl]. apply placed_cons in Pl as [Pj Pb].
    unfold exits. cbn [length]. rewrite app_length. cbn [length]. replace (pc + S (length ca + S (length cb))) with (pc + 1 + length ca + 1 + length cb) by lia.
    intros n i g F j g' Li Pth Nf. apply path_first in Pth as (n' & c1 & -> & St & Pth); [|lia].
    destruct (step_fork _ _ _ _ _ _ _ _ _ Pf St) as [-> | ->].
    + destruct (IHa Oa _ _ Ga Pa _ _ _ _ _ _ Li Pth) as (m & k & g1 & Mn & M & Lk & Pm); [lia|].
      apply path_first in Pm as (m' & c2 & -> & St2 & Pm); [|lia]. rewrite (step_jmp _ _ _ _ _ _ _ _ Pj St2) in Pm.
      exists m', k, g1. split; [lia|]. split; [apply m_altl; auto|]. auto.
    + destruct (IHb Ob _ _ Gb Pb _ _ _ _ _ _ Li Pth) as (m & k & g1 & Mn & M & Lk & Pm); [lia|].
      exists m, k, g1. split; [lia|]. split; [apply m_altr; auto|]. auto.
  - destruct O as [Oa Ob]. destruct (gen a pc) as [ca|] eqn:Ga; [|discriminate]. destruct (gen b (pc + length ca)) as [cb|] eqn:Gb; [|discriminate]. injection G as <-.
    apply placed_app in Pl as [Pa Pb]. unfold exits. rewrite app_length, Nat.add_assoc. intros n i g F j g' Li Pth Nf.
    destruct (IHa Oa _ _ Ga Pa _ _ _ _ _ _ Li Pth) as (m & k & g1 & Mn & M & Lk & Pm); [lia|].
    destruct (IHb Ob _ _ Gb Pb _ _ _ _ _ _ Lk Pm) as (m2 & k2 & g2 & Mn2 & M2 & Lk2 & Pm2); [lia|].
    exists m2, k2, g2. split; [lia|]. split; [eapply m_cat; eauto|]. auto.
  - destruct (gen a (pc + 1)) as [ca|] eqn:Ga; [|discriminate]. injection G as <-. apply star_exits; auto. eapply IHa; eauto.
    unfold starcode in Pl. apply placed_cons in Pl as [_ Pl]. apply placed_app in Pl as [Pa _]. exact Pa.
  - destruct (gen a pc) as [ca|] eqn:Ga; [|discriminate]. destruct (gen a (pc + length ca + 1)) as [cb|] eqn:Gb; [|discriminate]. injection G as <-.
    apply placed_app in Pl as [Pa Pb]. unfold exits. rewrite app_length, Nat.add_assoc. intros n i g F j g' Li Pth Nf.
    destruct (IHa O _ _ Ga Pa _ _ _ _ _ _ Li Pth) as (m & k & g1 & Mn & M & Lk & Pm); [lia|].
    assert (Ex : exits (Star a r) (pc + length ca) (starcode r (pc + length ca) cb)).
    { apply star_exits; auto. eapply IHa; eauto. unfold starcode in Pb. apply placed_cons in Pb as [_ Pl]. apply placed_app in Pl as [Pl _]. exact Pl. }
    destruct (Ex _ _ _ _ _ _ Lk Pm) as (m2 & k2 & g2 & Mn2 & M2 & Lk2 & Pm2); [lia|].
    exists m2, k2, g2. split; [lia|]. split; [eapply m_plus; eauto|]. auto.
  - destruct (gen a (pc + 1)) as [ca|] eqn:Ga; [|discriminate]. injection G as <-. apply placed_cons in Pl as [Pf Pa]. unfold exits. cbn [length].
    replace (pc + S (length ca)) with (pc + 1 + length ca) by lia. intros n i g F j g' Li Pth Nf. apply path_first in Pth as (n' & c1 & -> & St & Pth); [|lia].
    destruct (step_fork _ _ _ _ _ _ _ _ _ Pf St) as [-> | ->].
    + destruct (IHa O _ _ Ga Pa _ _ _ _ _ _ Li Pth) as (m & k & g1 & Mn & M & Lk & Pm); [lia|]. exists m, k, g1. split; [lia|]. split; [apply m_quest; auto|]. auto.
    + exists n', i, g. split; [lia|]. split; [constructor|]. auto.
  - rewrite genchar_some in G by auto. injection G as <-. unfold exits. rewrite map_length. intros n i g F j g' Li Pth Nf.
    destruct (bytes_path _ _ _ _ _ _ _ _ _ _ _ Li Pl Pth Nf) as (m & Mn & St & Pm). exists m, (i + length (Utf_Spec.utf8 ch)), g. split; auto. split; [constructor; auto|].
    split; [apply stands_le; auto|auto].
  - intros n i g F j g' Li Pth Nf. assert (Ok : classok rl) by (destruct O; split; auto).
    destruct (ranges_path _ _ _ _ _ _ _ _ _ _ _ _ Ok G Pl Pth Nf) as (w & m & Mn & B & St & Pm). exists m, (i + length w), g. split; auto. split; [constructor; auto|].
    split; [apply stands_le; auto|auto].
  - destruct O as [Om O]. destruct (gen a (pc + 1)) as [ca|] eqn:Ga; [|discriminate]. injection G as <-.
    apply placed_cons in Pl as [Pf Pl]. apply placed_app in Pl as [Pa Pl]. apply placed_cons in Pl as [Pr _].
    unfold exits. cbn [length]. rewrite app_length. cbn [length]. replace (pc + S (length ca + 1)) with (pc + 1 + length ca + 1) by lia.
    intros n i g F j g' Li Pth Nf. apply path_first in Pth as (n' & c1 & -> & St & Pth); [|lia]. rewrite (step_lbra _ _ _ _ _ _ _ _ Pf St) in Pth.
    destruct (IHa O _ _ Ga Pa _ _ _ _ _ _ Li Pth) as (m' & k & g1 & Mn & M & Lk & Pm); [lia|].
    apply path_first in Pm as (m2 & c2 & -> & St2 & Pm); [|lia]. rewrite (step_rbra _ _ _ _ _ _ _ _ Pr St2) in Pm.
    exists m2, k, (sethi g1 m k). split; [lia|]. split; [constructor; auto|]. auto.
  - injection G as <-. apply placed_cons in Pl as [Pf _]. intros n i g F j g' Li Pth Nf. cbn [length] in *. apply path_first in Pth as (n' & c1 & -> & St & Pth); [|lia].
    destruct (step_bol _ _ _ _ _ _ _ Pf St) as [A ->]. exists n', i, g. split; [lia|]. split; [constructor; auto|]. auto.
  - injection G as <-. apply placed_cons in Pl as [Pf _]. intros n i g F j g' Li Pth Nf. cbn [length] in *. apply path_first in Pth as (n' & c1 & -> & St & Pth); [|lia].
    destruct (step_eol _ _ _ _ _ _ _ Pf St) as [A ->]. exists n', i, g. split; [lia|]. split; [constructor; auto|]. auto.
  - injection G as <-. apply placed_cons in Pl as [Pf _]. intros n i g F j g' Li Pth Nf. cbn [length] in *. apply path_first in Pth as (n' & c1 & -> & St & Pth); [|lia].
    destruct (step_bow _ _ _ _ _ _ _ Pf St) as [A ->]. exists n', i, g. split; [lia|]. split; [constructor; auto|]. auto.
  - injection G as <-. apply placed_cons in Pl as [Pf _]. intros n i g F j g' Li Pth Nf. cbn [length] in *. apply path_first in Pth as (n' & c1 & -> & St & Pth); [|lia].
    destruct (step_eow _ _ _ _ _ _ _ Pf St) as [A ->]. exists n', i, g. split; [lia|]. split; [constructor; auto|]. auto.
Qed.
End Machine.

(* ---- shape of the program: jumps stay inside, groups are below 16, and only the last instruction is a match ---- *)
Definition okinst (hi : nat) (x : inst) : Prop :=
  match x with
  | Ifork l r => l <= hi /\ r <= hi
  | Ijmp d => d <= hi
  | Ilbra m | Irbra m => m < 16
  | Imatch _ => False
  | _ => True
  end.
Lemma okinst_le hi hi' c : hi <= hi' -> Forall (okinst hi) c -> Forall (okinst hi') c.
Proof. intros L F. eapply Forall_impl; [|exact F]. intros []; cbn; try tauto; lia. Qed.
Lemma rangegen_okinst fuel : forall sub pc fin c hi, rangegen fuel sub pc fin = Some c -> fin <= hi -> pc + length c <= hi -> Forall (okinst hi) c.
Proof.
  induction fuel as [|fuel IH]; intros sub pc fin c hi R Lf Lc; [discriminate|]. cbn [rangegen] in R.
  destruct sub as [|[[a0 b0] [e sub']] [|y rest]].
  - injection R as <-. constructor.
  - destruct e.
    + destruct sub'; [|discriminate]. injection R as <-. repeat constructor. cbn. auto.
    + destruct (rangegen fuel sub' (pc + 1) fin) as [c'|] eqn:R'; [|discriminate]. injection R as <-. cbn [length] in Lc. constructor; [exact I|]. eapply IH; eauto. lia.
  - set (sub := (a0, b0, Node e sub') :: y :: rest) in *. clearbody sub. set (h := length sub / 2) in *. clearbody h.
    destruct (rangegen fuel (firstn h sub) (pc + 1) fin) as [c1|] eqn:R1; [|discriminate].
    destruct (rangegen fuel (skipn h sub) (pc + 1 + length c1) fin) as [c2|] eqn:R2; [|discriminate]. injection R as <-. cbn [length] in Lc. rewrite app_length in Lc.
    constructor; [cbn; lia|]. apply Forall_app. split; eapply IH; eauto; lia.
Qed.
Lemma gen_okinst t : okpat t -> forall pc c, gen t pc = Some c -> Forall (okinst (pc + length c)) c.
Proof.
  induction t as [a IHa b IHb|a IHa b IHb|a IHa r|a IHa r|a IHa|ch|rl|m a IHa| | | |]; cbn [okpat gen]; intros O pc c G.
  - destruct O as [Oa Ob]. destruct (gen a (pc + 1)) as [ca|] eqn:Ga; [|discriminate]. destruct (gen b (pc + 1 + length ca + 1)) as [cb|] eqn:Gb; [|discriminate]. injection G as <-.
    cbn [length]. rewrite app_length. cbn [length]. constructor; [cbn; lia|]. apply Forall_app. split; [eapply okinst_le; [|eapply IHa; eauto]; lia|].
    constructor; [cbn; lia|]. eapply okinst_le; [|eapply IHb; eauto]; lia.
  - destruct O as [Oa Ob]. destruct (gen a pc) as [ca|] eqn:Ga; [|discriminate]. destruct (gen b (pc + length ca)) as [cb|] eqn:Gb; [|discriminate]. injection G as <-.
    rewrite app_length. apply Forall_app. split; [eapply okinst_le; [|eapply IHa; eauto]; lia|eapply okinst_le; [|eapply IHb; eauto]; lia].
  - destruct (gen a (pc + 1)) as [ca|] eqn:Ga; [|discriminate]. injection G as <-. unfold starcode. cbn [length]. rewrite app_length. cbn [length].
    constructor; [destruct r; cbn; lia|]. apply Forall_app. split; [eapply okinst_le; [|eapply IHa; eauto]; lia|]. repeat constructor. cbn; lia.
  - destruct (gen a pc) as [ca|] eqn:Ga; [|discriminate]. destruct (gen a (pc + length ca + 1)) as [cb|] eqn:Gb; [|discriminate]. injection G as <-.
    unfold starcode. rewrite app_length. cbn [length]. rewrite app_length. cbn [length]. apply Forall_app. split; [eapply okinst_le; [|eapply IHa; eauto]; lia|].
    constructor; [destruct r; cbn; lia|]. apply Forall_app. split; [eapply okinst_le; [|eapply IHa; eauto]; lia|]. repeat constructor. cbn; lia.
  - destruct (gen a (pc + 1)) as [ca|] eqn:Ga; [|discriminate]. injection G as <-. cbn [length]. constructor; [cbn; lia|]. eapply okinst_le; [|eapply IHa; eauto]; lia.
  - rewrite genchar_some in G by auto. injection G as <-. apply Forall_forall. intros x I. apply in_map_iff in I as (b & <- & _). exact I.
  - assert (Ok : classok rl) by (destruct O; split; auto). destruct (genranges_ok _ _ _ Ok G) as (fuel & sub & R & _). eapply rangegen_okinst; eauto.
  - destruct O as [Om O]. destruct (gen a (pc + 1)) as [ca|] eqn:Ga; [|discriminate]. injection G as <-. cbn [length]. rewrite app_length. cbn [length].
    constructor; [exact Om|]. apply Forall_app. split; [eapply okinst_le; [|eapply IHa; eauto]; lia|]. constructor; [exact Om|constructor].
  - injection G as <-. repeat constructor.
  - injection G as <-. repeat constructor.
  - injection G as <-. repeat constructor.
  - injection G as <-. repeat constructor.
Qed.

(* ---- the whole program: its last instruction is reached exactly at the ends of matches ---- *)
Definition lastpc (P : list inst) : nat := length P - 1.
Lemma compile_some t : okpat t -> exists P, compile t = Some P.
Proof. intros O. unfold compile. destruct (gen_some t O 1) as (c & ->). eauto. Qed.
Lemma compile_gen t P : compile t = Some P -> exists c, gen (Cap 0 t) 0 = Some c /\ P = c ++ [Imatch 0] /\ lastpc P = length c /\ (forall x, nth_error c (length c - 1) = Some x -> x = Irbra 0).
Proof.
  unfold compile. cbn [gen]. cbn [Nat.add]. destruct (gen t 1) as [c|]; [|discriminate]. intros E. injection E as <-. exists (Ilbra 0 :: c ++ [Irbra 0]). split; auto.
  split; [cbn; rewrite <- app_assoc; reflexivity|]. split; [unfold lastpc; cbn [length]; rewrite !app_length; cbn; lia|]. intros x. cbn [length]. rewrite app_length. cbn [length].
  replace (S (length c + 1) - 1) with (S (length c)) by lia. cbn [nth_error]. rewrite nth_error_app2, Nat.sub_diag by lia. cbn. congruence.
Qed.
Lemma placed_pre P c d : P = c ++ d -> placed P 0 c.
Proof. intros -> k x K. cbn. rewrite nth_error_app1; [auto|]. apply nth_error_Some. congruence. Qed.
Lemma compile_last t P : okpat t -> compile t = Some P -> nth_error P (lastpc P) = Some (Imatch 0) /\
  (forall k x, nth_error P k = Some x -> k < lastpc P /\ okinst (lastpc P) x \/ k = lastpc P /\ x = Imatch 0) /\ 0 < lastpc P /\
  (forall k x, k + 1 = lastpc P -> nth_error P k = Some x -> x = Irbra 0).
Proof.
  intros O C. apply compile_gen in C as (c & G & -> & L & Lb). rewrite L. assert (O' : okpat (Cap 0 t)) by (cbn; split; [lia|auto]).
  pose proof (gen_okinst _ O' _ _ G) as F. cbn [Nat.add] in F.
  assert (0 < length c). { cbn [gen] in G. destruct (gen t (0 + 1)); [|discriminate]. injection G as <-. cbn; lia. }
  split; [rewrite nth_error_app2, Nat.sub_diag by lia; reflexivity|]. split; [|split; [auto|]].
  - intros k x K. destruct (Nat.lt_ge_cases k (length c)) as [Lk|Lk].
    + left. split; auto. rewrite nth_error_app1 in K by auto. rewrite Forall_forall in F. apply F. eapply nth_error_In; eauto.
    + right. rewrite nth_error_app2 in K by auto. destruct (k - length c) as [|z] eqn:Z; cbn in K; [injection K as <-; split; [lia|auto]|destruct z; discriminate].
  - intros k x K X. rewrite nth_error_app1 in X by lia. apply Lb. replace (length c - 1) with k by lia. auto.
Qed.
Section Whole.
Variable isword : list N -> bool.
Lemma whole_complete t P s i g j g' : okpat t -> compile t = Some P -> matches isword bytecls s (Cap 0 t) i g j g' -> reach isword P s (0, i, g) (lastpc P, j, g').
Proof.
  intros O C M. apply compile_gen in C as (c & G & E & L & _). rewrite L. replace (length c) with (0 + length c) by lia. eapply (gen_complete isword P s (Cap 0 t)); [cbn; split; [lia|auto]|exact G|eapply placed_pre; eauto|exact M].
Qed.
Lemma whole_sound t P s i g j g' : okpat t -> compile t = Some P -> i <= length s -> reach isword P s (0, i, g) (lastpc P, j, g') -> matches isword bytecls s (Cap 0 t) i g j g'.
Proof.
  intros O C Li (n & Pth). apply compile_gen in C as (c & G & E & L & _). rewrite L in Pth.
  destruct (gen_sound isword P s (Cap 0 t) ltac:(cbn; split; [lia|auto]) 0 c G (placed_pre _ _ _ E) _ _ _ _ _ _ Li Pth) as (m & k & g1 & Mn & M & Lk & Pm); [lia|].
  cbn [Nat.add] in Pm. inversion Pm as [|m' ? c1 ? St Pm']; subst; auto. exfalso.
  assert (X : nth_error (c ++ [Imatch 0]) (length c) = Some (Imatch 0)) by (rewrite nth_error_app2, Nat.sub_diag by lia; reflexivity).
  inversion St; subst; congruence.
Qed.
End Whole.
