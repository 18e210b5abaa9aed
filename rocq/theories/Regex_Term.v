(* The interpreter neither aborts nor hangs, for patterns that repeat no part that can match the empty string. *)
From Verif Require Import Base Regex_Model Regex_Spec Regex_Comp Regex_Rng Regex_Gen Regex_Run.
Open Scope nat_scope.

(* can t match without consuming (anchors counted as matching) *)
Fixpoint nullable (t : ast) : bool :=
  match t with
  | Alt a b => nullable a || nullable b
  | Cat a b => nullable a && nullable b
  | Star _ _ | Quest _ => true
  | Plus a _ | Cap _ a => nullable a
  | Chr _ | Ranges _ => false
  | Bol | Eol | Bow | Eow => true
  end.
Fixpoint loopsok (t : ast) : Prop :=
  match t with
  | Alt a b | Cat a b => loopsok a /\ loopsok b
  | Star a _ | Plus a _ => nullable a = false /\ loopsok a
  | Quest a | Cap _ a => loopsok a
  | _ => True
  end.
Fixpoint haseow (t : ast) : bool :=
  match t with
  | Alt a b | Cat a b => haseow a || haseow b
  | Star a _ | Plus a _ | Quest a | Cap _ a => haseow a
  | Eow => true
  | _ => false
  end.

(* ---- fuel ---- *)
Section Mono.
Variable isword : list N -> bool.
Variable P : list inst.
Variable s : list N.
Notation stepall := (stepall isword P s).
Notation round := (round isword P s).
Notation rounds := (rounds isword P s).
Lemma stepall_mono f : forall f' p start cur t q n, f <= f' -> stepall f p start cur t q n <> Thang -> stepall f' p start cur t q n = stepall f p start cur t q n.
Proof.
  induction f as [|f IH]; intros [|f'] p start cur t q n L H; cbn in *; try congruence; try lia. destruct (step isword P s p cur t); auto. apply IH; [lia|auto].
Qed.
Lemma round_mono f : forall f' w p q st e b n, f <= f' -> round f w p q st e b n <> Rhang -> round f' w p q st e b n = round f w p q st e b n.
Proof.
  induction f as [|f IH]; intros f' w p q st e b n L H; [cbn in H; congruence|]. destruct f' as [|f']; [lia|]. cbn [Regex_Model.round] in *. destruct q as [|t q]; auto.
  rewrite (stepall_mono (S f) (S f')) by (try lia; intros E; rewrite E in H; congruence).
  destruct (stepall (S f) p (ip t) None t q n); auto; repeat match goal with |- context [if ?b then _ else _] => destruct b end; auto; apply IH; auto; lia.
Qed.
End Mono.

(* ---- no step without consuming goes on forever ---- *)
Section Term.
Variable isword : list N -> bool.
Variable P : list inst.
Definition succs (v : nat) : list nat :=
  match nth_error P v with
  | Some (Ifork l r) => [l; r]
  | Some (Ijmp d) => [d]
  | Some (Ilbra _ | Irbra _ | Ibol | Ieol | Ibow | Ieow) => [v + 1]
  | _ => []
  end.
Definition after (w v : nat) : Prop := In w (succs v).
Notation good := (Acc after).
Lemma good_of v : (forall w, In w (succs v) -> good w) -> good v.
Proof. intros H. constructor. exact H. Qed.
Lemma good_range v lo hi : nth_error P v = Some (Irange lo hi) -> good v.
Proof. intros E. apply good_of. unfold succs. rewrite E. intros w []. Qed.
Lemma good_byte v b : nth_error P v = Some (Ibyte b) -> good v.
Proof. intros E. apply good_of. unfold succs. rewrite E. intros w []. Qed.
Lemma good_jmp v d : nth_error P v = Some (Ijmp d) -> good d -> good v.
Proof. intros E G. apply good_of. unfold succs. rewrite E. intros w [<-|[]]. auto. Qed.
Lemma good_fork v l r : nth_error P v = Some (Ifork l r) -> good l -> good r -> good v.
Proof. intros E G1 G2. apply good_of. unfold succs. rewrite E. intros w [<-|[<-|[]]]; auto. Qed.
Definition plain (x : inst) : Prop := match x with Ilbra _ | Irbra _ | Ibol | Ieol | Ibow | Ieow => True | _ => False end.
Lemma good_plain v x : nth_error P v = Some x -> plain x -> good (v + 1) -> good v.
Proof. intros E Pl G. apply good_of. unfold succs. rewrite E. destruct x; cbn in Pl; try tauto; intros w [<-|[]]; auto. Qed.

Lemma rangegen_good fuel : forall sub pc fin c, rangegen fuel sub pc fin = Some c -> placed P pc c -> sub <> [] -> allfull sub ->
  good pc /\ (good fin -> forall k, k < length c -> good (pc + k)).
Proof.
  induction fuel as [|fuel IH]; intros sub pc fin c R Pl Ne Al; [discriminate|]. cbn [rangegen] in R.
  destruct sub as [|[[a0 b0] [e sub']] [|y rest]]; [congruence| |].
  - destruct (Al a0 b0 (Node e sub') (or_introl eq_refl)) as (k & Fu). apply full_leaf in Fu as [(-> & -> & _)|(-> & Ns & As)].
    + injection R as <-. apply placed_cons in Pl as [P1 Pl]. apply placed_cons in Pl as [P2 _]. split; [eapply good_range; eauto|].
      intros G [|[|k']] K; cbn in K; [rewrite Nat.add_0_r; eapply good_range; eauto|eapply good_jmp; eauto|lia].
    + destruct (rangegen fuel sub' (pc + 1) fin) as [c'|] eqn:R'; [|discriminate]. injection R as <-. apply placed_cons in Pl as [P1 Pl]. split; [eapply good_range; eauto|].
      destruct (IH _ _ _ _ R' Pl Ns As) as [_ X]. intros G [|k'] K; cbn in K; [rewrite Nat.add_0_r; eapply good_range; eauto|]. replace (pc + S k') with (pc + 1 + k') by lia. apply X; auto. lia.
  - set (sub := (a0, b0, Node e sub') :: y :: rest) in *. assert (L2 : 2 <= length sub) by (unfold sub; cbn; lia). clearbody sub.
    pose proof (split_half sub L2) as (N1 & N2 & _). cbn zeta in *. set (h := length sub / 2) in *. clearbody h.
    destruct (rangegen fuel (firstn h sub) (pc + 1) fin) as [c1|] eqn:R1; [|discriminate].
    destruct (rangegen fuel (skipn h sub) (pc + 1 + length c1) fin) as [c2|] eqn:R2; [|discriminate]. injection R as <-.
    apply placed_cons in Pl as [Pf Pl]. apply placed_app in Pl as [Pl1 Pl2].
    assert (A1 : allfull (firstn h sub)) by (eapply allfull_sub; [eauto|apply in_firstn]). assert (A2 : allfull (skipn h sub)) by (eapply allfull_sub; [exact Al|apply in_skipn]).
    destruct (IH _ _ _ _ R1 Pl1 N1 A1) as [X1 Y1]. destruct (IH _ _ _ _ R2 Pl2 N2 A2) as [X2 Y2].
    assert (G0 : good pc) by (eapply good_fork; eauto). split; auto. intros G [|k] K; cbn [length] in K; [rewrite Nat.add_0_r; auto|]. rewrite app_length in K.
    destruct (Nat.lt_ge_cases k (length c1)); [replace (pc + S k) with (pc + 1 + k) by lia; apply Y1; auto|].
    replace (pc + S k) with (pc + 1 + length c1 + (k - length c1)) by lia. apply Y2; auto. lia.
Qed.
Lemma bytes_good w : forall pc, placed P pc (map Ibyte w) -> forall k, k < length w -> good (pc + k).
Proof.
  intros pc Pl k K. destruct (nth_error w k) as [b|] eqn:E; [|apply nth_error_None in E; lia]. eapply good_byte. apply Pl. rewrite nth_error_map, E. reflexivity.
Qed.
Lemma utf8_pos c : 0 < length (Utf_Spec.utf8 c).
Proof. unfold Utf_Spec.utf8. repeat match goal with |- context [(?a <? ?b)%N] => destruct (N.ltb_spec a b) end; cbn; lia. Qed.

Lemma star_good r ca pc : placed P pc (starcode r pc ca) -> good (pc + 1) -> (good (pc + 1 + length ca) -> forall k, k <= length ca -> good (pc + 1 + k)) ->
  good (pc + length (starcode r pc ca)) -> forall k, k <= length (starcode r pc ca) -> good (pc + k).
Proof.
  intros Pl Ge Gi. assert (Ls : length (starcode r pc ca) = length ca + 2) by (unfold starcode; destruct r; cbn [length]; rewrite app_length; cbn; lia).
  unfold starcode in Pl. assert (Pl' : nth_error P pc = Some (if r then Ifork (pc + 1 + length ca + 1) (pc + 1) else Ifork (pc + 1) (pc + 1 + length ca + 1)) /\ placed P (pc + 1) (ca ++ [Ijmp pc])) by (apply placed_cons; exact Pl).
  clear Pl. destruct Pl' as [Pf Pl]. apply placed_app in Pl as [Pa Pj]. apply placed_cons in Pj as [Pj _]. rewrite Ls. replace (pc + (length ca + 2)) with (pc + 1 + length ca + 1) by lia.
  intros Gx. assert (G0 : good pc) by (destruct r; eapply good_fork; eauto). assert (Gj : good (pc + 1 + length ca)) by (eapply good_jmp; eauto).
  intros k K. destruct k as [|k]; [rewrite Nat.add_0_r; auto|]. destruct (Nat.eq_dec k (length ca + 1)) as [->|Nk]; [replace (pc + S (length ca + 1)) with (pc + 1 + length ca + 1) by lia; auto|].
  replace (pc + S k) with (pc + 1 + k) by lia. apply Gi; auto. lia.
Qed.
Lemma gen_good t : okpat t -> loopsok t -> forall pc c, gen t pc = Some c -> placed P pc c ->
  (good (pc + length c) -> forall k, k <= length c -> good (pc + k)) /\ (nullable t = false -> good pc).
Proof.
  induction t as [a IHa b IHb|a IHa b IHb|a IHa r|a IHa r|a IHa|ch|rl|m a IHa| | | |]; cbn [okpat loopsok gen nullable]; intros O Lo pc c G Pl.
  - destruct O as [Oa Ob]. destruct Lo as [La Lb]. destruct (gen a (pc + 1)) as [ca|] eqn:Ga; [|discriminate]. destruct (gen b (pc + 1 + length ca + 1)) as [cb|] eqn:Gb; [|discriminate]. injection G as <-.
    apply placed_cons in Pl as [Pf Pl]. apply placed_app in Pl as [Pa Pl]. apply placed_cons in Pl as [Pj Pb].
    destruct (IHa Oa La _ _ Ga Pa) as [A1 A2]. destruct (IHb Ob Lb _ _ Gb Pb) as [B1 B2]. split.
    + cbn [length]. rewrite app_length. cbn [length]. replace (pc + S (length ca + S (length cb))) with (pc + 1 + length ca + 1 + length cb) by lia. intros Gx.
      assert (Gj : good (pc + 1 + length ca)) by (eapply good_jmp; eauto).
      assert (G1 : good (pc + 1)) by (specialize (A1 Gj 0 ltac:(lia)); rewrite Nat.add_0_r in A1; auto).
      assert (G2 : good (pc + 1 + length ca + 1)) by (specialize (B1 Gx 0 ltac:(lia)); rewrite Nat.add_0_r in B1; auto).
      intros [|k] K; [rewrite Nat.add_0_r; eapply good_fork; eauto|]. destruct (Nat.le_gt_cases k (length ca)); [replace (pc + S k) with (pc + 1 + k) by lia; apply A1; auto|].
      replace (pc + S k) with (pc + 1 + length ca + 1 + (k - length ca - 1)) by lia. apply B1; auto. lia.
    + intros Nu. apply orb_false_iff in Nu as [Na Nb]. eapply good_fork; eauto.
  - destruct O as [Oa Ob]. destruct Lo as [La Lb]. destruct (gen a pc) as [ca|] eqn:Ga; [|discriminate]. destruct (gen b (pc + length ca)) as [cb|] eqn:Gb; [|discriminate]. injection G as <-.
    apply placed_app in Pl as [Pa Pb]. destruct (IHa Oa La _ _ Ga Pa) as [A1 A2]. destruct (IHb Ob Lb _ _ Gb Pb) as [B1 B2]. rewrite app_length. split.
    + rewrite Nat.add_assoc. intros Gx. assert (G2 : good (pc + length ca)) by (specialize (B1 Gx 0 ltac:(lia)); rewrite Nat.add_0_r in B1; auto).
      intros k K. destruct (Nat.le_gt_cases k (length ca)); [apply A1; auto|]. replace (pc + k) with (pc + length ca + (k - length ca)) by lia. apply B1; auto. lia.
    + intros Nu. apply andb_false_iff in Nu as [Na|Nb]; auto. specialize (A1 (B2 Nb) 0 ltac:(lia)). rewrite Nat.add_0_r in A1. auto.
  - destruct Lo as [Nu Lo]. destruct (gen a (pc + 1)) as [ca|] eqn:Ga; [|discriminate]. injection G as <-. split; [|discriminate].
    assert (Pa : placed P (pc + 1) ca) by (unfold starcode in Pl; apply placed_cons in Pl as [_ Pl]; apply placed_app in Pl as [Pa _]; exact Pa).
    destruct (IHa O Lo _ _ Ga Pa) as [A1 A2]. eapply star_good; eauto.
  - destruct Lo as [Nu Lo]. destruct (gen a pc) as [ca|] eqn:Ga; [|discriminate]. destruct (gen a (pc + length ca + 1)) as [cb|] eqn:Gb; [|discriminate]. injection G as <-.
    apply placed_app in Pl as [Pa Pb]. assert (Pc : placed P (pc + length ca + 1) cb) by (unfold starcode in Pb; apply placed_cons in Pb as [_ Pl]; apply placed_app in Pl as [Pl _]; exact Pl).
    destruct (IHa O Lo _ _ Ga Pa) as [A1 A2]. destruct (IHa O Lo _ _ Gb Pc) as [B1 B2]. split; [|auto]. rewrite app_length, Nat.add_assoc. intros Gx.
    pose proof (star_good r cb (pc + length ca) Pb (B2 Nu) B1 Gx) as S1.
    intros k K. destruct (Nat.le_gt_cases k (length ca)); [apply A1; auto; specialize (S1 0 ltac:(lia)); rewrite Nat.add_0_r in S1; auto|].
    replace (pc + k) with (pc + length ca + (k - length ca)) by lia. apply S1. lia.
  - destruct (gen a (pc + 1)) as [ca|] eqn:Ga; [|discriminate]. injection G as <-. apply placed_cons in Pl as [Pf Pa]. destruct (IHa O Lo _ _ Ga Pa) as [A1 A2]. split; [|discriminate].
    cbn [length]. replace (pc + S (length ca)) with (pc + 1 + length ca) by lia. intros Gx. assert (G1 : good (pc + 1)) by (specialize (A1 Gx 0 ltac:(lia)); rewrite Nat.add_0_r in A1; auto).
    intros [|k] K; [rewrite Nat.add_0_r; eapply good_fork; eauto|]. replace (pc + S k) with (pc + 1 + k) by lia. apply A1; auto. lia.
  - rewrite genchar_some in G by auto. injection G as <-. rewrite map_length. split.
    + intros Gx k K. destruct (Nat.eq_dec k (length (Utf_Spec.utf8 ch))) as [->|]; auto. eapply bytes_good; eauto. lia.
    + intros _. rewrite <- (Nat.add_0_r pc). eapply bytes_good; eauto. apply utf8_pos.
  - assert (Ok : classok rl) by (destruct O; split; auto). destruct (genranges_ok _ _ _ Ok G) as (fuel & sub & R & Ns & Al & _). destruct (rangegen_good _ _ _ _ _ R Pl Ns Al) as [X Y]. split; auto.
    intros Gx k K. destruct (Nat.eq_dec k (length c)) as [->|]; auto. apply Y; auto. lia.
  - destruct O as [Om O]. destruct (gen a (pc + 1)) as [ca|] eqn:Ga; [|discriminate]. injection G as <-.
    apply placed_cons in Pl as [Pf Pl]. apply placed_app in Pl as [Pa Pl]. apply placed_cons in Pl as [Pr _]. destruct (IHa O Lo _ _ Ga Pa) as [A1 A2]. split.
    + cbn [length]. rewrite app_length. cbn [length]. replace (pc + S (length ca + 1)) with (pc + 1 + length ca + 1) by lia. intros Gx.
      assert (Gr : good (pc + 1 + length ca)) by (eapply good_plain; eauto; exact I). assert (G1 : good (pc + 1)) by (specialize (A1 Gr 0 ltac:(lia)); rewrite Nat.add_0_r in A1; auto).
      intros [|k] K; [rewrite Nat.add_0_r; eapply good_plain; eauto; exact I|]. destruct (Nat.eq_dec k (length ca + 1)) as [->|]; [replace (pc + S (length ca + 1)) with (pc + 1 + length ca + 1) by lia; auto|].
      replace (pc + S k) with (pc + 1 + k) by lia. apply A1; auto. lia.
    + intros Nu. eapply good_plain; eauto. exact I.
  - injection G as <-. apply placed_cons in Pl as [Pf _]. split; [|discriminate]. intros Gx [|[|k]] K; cbn in K; [rewrite Nat.add_0_r; eapply good_plain; eauto; exact I|auto|lia].
  - injection G as <-. apply placed_cons in Pl as [Pf _]. split; [|discriminate]. intros Gx [|[|k]] K; cbn in K; [rewrite Nat.add_0_r; eapply good_plain; eauto; exact I|auto|lia].
  - injection G as <-. apply placed_cons in Pl as [Pf _]. split; [|discriminate]. intros Gx [|[|k]] K; cbn in K; [rewrite Nat.add_0_r; eapply good_plain; eauto; exact I|auto|lia].
  - injection G as <-. apply placed_cons in Pl as [Pf _]. split; [|discriminate]. intros Gx [|[|k]] K; cbn in K; [rewrite Nat.add_0_r; eapply good_plain; eauto; exact I|auto|lia].
Qed.
Lemma compile_good t : okpat t -> loopsok t -> compile t = Some P -> forall k, k <= lastpc P -> good k.
Proof.
  intros O Lo C. pose proof (compile_last _ _ O C) as (Lm & _). apply compile_gen in C as (c & G & E & L & _). rewrite L in *.
  assert (Gx : good (length c)) by (apply good_of; unfold succs; rewrite Lm; intros w []).
  destruct (gen_good (Cap 0 t) ltac:(cbn; split; [lia|auto]) Lo 0 c G (placed_pre _ _ _ E)) as [X _]. intros k K. apply (X Gx k K).
Qed.

(* the number of steps from an address *)
Inductive wt : nat -> nat -> Prop := wt_intro v ns n : Forall2 wt (succs v) ns -> list_sum ns < n -> wt v n.
Lemma wt_inv v n : wt v n -> exists ns, Forall2 wt (succs v) ns /\ list_sum ns < n.
Proof. intros H. inversion H; eauto. Qed.
Lemma good_wt v : good v -> exists n, wt v n.
Proof.
  induction 1 as [v _ IH]. assert (X : exists ns, Forall2 wt (succs v) ns).
  { unfold after in IH. induction (succs v) as [|w l IHl]; [exists []; constructor|]. destruct (IH w (or_introl eq_refl)) as (n & Hn). destruct IHl as (ns & Hs); [intros x Ix; apply IH; right; auto|]. exists (n :: ns). constructor; auto. }
  destruct X as (ns & Hs). exists (S (list_sum ns)). econstructor; eauto.
Qed.

Section Str.
Variable s : list N.
Notation step := (step isword P s).
Notation stepall := (stepall isword P s).
Notation round := (round isword P s).
Notation rounds := (rounds isword P s).
Notation wq := (Forall2 (fun t n => wt (ip t) n)).
Lemma wq_of l : forall ns, Forall2 wt (map ip l) ns -> wq l ns.
Proof. induction l as [|x l IH]; intros ns H; inversion H; subst; constructor; auto. Qed.
Lemma step_succs p cur t t' new : step p cur t = Goon t' new -> (succs (ip t) = map ip (t' :: new) \/ exists r, succs (ip t) = [ip t'; r] /\ new = []).
Proof.
  unfold step, succs. destruct (nth_error P (ip t)) as [[]|]; intros H; try discriminate; unfold next in *;
  repeat match goal with H : context [match nth_error s p with _ => _ end] |- _ => destruct (nth_error s p) | H : context [if ?b then Died else _] |- _ => destruct b | H : (if ?b then _ else _) = Goon _ _ |- _ => destruct b end; try discriminate; injection H as <- <-; auto.
  destruct cur as [c|]; [destruct (c =? r)|]; cbn; eauto.
Qed.
Lemma stepall_wt fuel : forall k p start cur t q n, wt (ip t) k -> k <= fuel -> stepall fuel p start cur t q n <> Thang /\
  (stepall fuel p start cur t q n <> Tabort -> exists new ns, queueof (stepall fuel p start cur t q n) = new ++ q /\ wq new ns /\ list_sum ns < k).
Proof.
  induction fuel as [|fuel IH]; intros k p start cur t q n W K; [destruct (wt_inv _ _ W) as (? & _ & ?); lia|]. cbn [Regex_Model.stepall]. destruct (wt_inv _ _ W) as (ns & F & Su).
  destruct (step p cur t) as [t'| |t'|t' new|] eqn:Es; try (split; [discriminate|intros _; exists [], []; split; [reflexivity|split; [constructor|cbn; lia]]]); [|split; [discriminate|congruence]].
  assert (X : exists k' ns', wt (ip t') k' /\ wq new ns' /\ k' + list_sum ns' < k).
  { destruct (step_succs _ _ _ _ _ Es) as [E|(r & E & ->)]; rewrite E in F; inversion F as [|? k' ? ns' Hw Hr]; subst; cbn in Su.
    - change (fold_right Init.Nat.add 0 ns') with (list_sum ns') in Su. exists k', ns'. split; auto. split; [apply wq_of; auto|lia].
    - exists k', []. split; auto. split; [constructor|cbn; lia]. }
  destruct X as (k' & ns' & W' & Wn & Sk). destruct (IH k' p start (Some start) t' (new ++ q) (n + Z.of_nat (length new))%Z W' ltac:(lia)) as [A B]. split; auto.
  intros Na. destruct (B Na) as (new' & ns2 & Q & W2 & S2). exists (new' ++ new), (ns2 ++ ns'). split; [rewrite Q, app_assoc; reflexivity|]. split; [apply Forall2_app; auto|]. rewrite list_sum_app. lia.
Qed.
Lemma round_wt fuel : forall w p q st e b n ns, wq q ns -> list_sum ns < fuel -> round fuel w p q st e b n <> Rhang.
Proof.
  induction fuel as [|fuel IH]; intros w p q st e b n ns W K; [lia|]. cbn [Regex_Model.round]. destruct q as [|t q]; [discriminate|].
  inversion W as [|? k ? ns' Hw Hr]; subst. change (list_sum (k :: ns')) with (k + list_sum ns') in K. destruct (stepall_wt (S fuel) k p (ip t) None t q n Hw ltac:(lia)) as [A B].
  destruct (stepall (S fuel) p (ip t) None t q n) as [t' q' n'|q' n'|t' q' n'| |]; try congruence;
  (destruct B as (new & ns2 & Q & W2 & S2); [discriminate|]); cbn in Q; subst; 
  repeat match goal with |- context [if ?b then _ else _] => destruct b end; try discriminate; (eapply IH; [apply Forall2_app; eauto|rewrite list_sum_app; lia]).
Qed.

(* ---- no abort ---- *)
Variable L : nat.
Hypothesis shape : forall k x, nth_error P k = Some x -> k < L /\ okinst L x \/ k = L /\ x = Imatch 0.
Hypothesis inprog : length P = L + 1.
Hypothesis noeow : s = [] -> ~ In Ieow P.
Definition inb (t : thread) : Prop := ip t <= L.
Lemma step_inb p cur t : inb t -> match step p cur t with Consumed t' | Matched t' => inb t' | Goon t' new => inb t' /\ Forall inb new | Died => True | Sabort => False end.
Proof.
  intros I. unfold step. destruct (nth_error P (ip t)) as [x|] eqn:E; [|apply nth_error_None in E; unfold inb in I; lia].
  destruct (shape _ _ E) as [(Lt & Ok)|(Eq & ->)]; [|exact I]. unfold inb in *. destruct x; cbn in Ok |- *.
  - destruct (nth_error s p); auto. destruct (negb (b =? n)%N); cbn; auto; lia.
  - destruct (nth_error s p); auto. destruct ((n <? lo)%N || (hi <? n)%N); cbn; auto; lia.
  - destruct (Nat.ltb_spec m 16); [|lia]. cbn. split; [lia|auto].
  - destruct (Nat.ltb_spec m 16); [|lia]. cbn. split; [lia|auto].
  - destruct ((p =? 0) || (nth (p - 1) s 0 =? 10)%N); cbn; auto; split; [lia|auto].
  - destruct ((p =? length s) || (nth p s 0 =? 10)%N); cbn; auto; split; [lia|auto].
  - destruct (isword (skipn p s) && ((p =? 0) || negb (isword (skipn (prevchar s p) s)))); cbn; auto; split; [lia|auto].
  - destruct ((p =? length s) && (p =? 0)) eqn:Z.
    + apply andb_true_iff in Z as [Z1 Z2]. apply Nat.eqb_eq in Z1, Z2. apply noeow; [destruct s; [auto|cbn in *; lia]|]. eapply nth_error_In; eauto.
    + destruct ((p =? length s) && isword (skipn (prevchar s p) s)); cbn; [split; [lia|auto]|]. destruct ((0 <? p) && negb (isword (skipn p s)) && isword (skipn (prevchar s p) s)); cbn; auto; split; [lia|auto].
  - split; [lia|]. destruct (match cur with Some c => c =? r | None => false end); repeat constructor. cbn; lia.
  - split; [lia|auto].
  - tauto.
Qed.
Lemma stepall_inb fuel : forall p start cur t q n, inb t -> Forall inb q -> 
  match stepall fuel p start cur t q n with Tcons t' q' _ | Tmatch t' q' _ => inb t' /\ Forall inb q' | Tdead q' _ => Forall inb q' | Tabort => False | Thang => True end.
Proof.
  induction fuel as [|fuel IH]; intros p start cur t q n I F; cbn; auto. pose proof (step_inb p cur t I) as S1. destruct (step p cur t); auto.
  destruct S1. apply IH; auto. apply Forall_app; auto.
Qed.
Lemma round_inb fuel : forall w p q st e b n, Forall inb q -> Forall inb e -> 
  match round fuel w p q st e b n with Rend e' _ _ => Forall inb e' | Rabort => False | _ => True end.
Proof.
  induction fuel as [|fuel IH]; intros w p q st e b n Q E; cbn [Regex_Model.round]; auto. destruct q as [|t q]; auto. inversion Q; subst.
  pose proof (stepall_inb (S fuel) p (ip t) None t q n ltac:(auto) ltac:(auto)) as S1. destruct (stepall (S fuel) p (ip t) None t q n) as [t' q' n'|q' n'|t' q' n'| |]; auto.
  - destruct S1. destruct (mem (ip t') st); apply IH; auto. apply Forall_app; auto.
  - apply IH; auto.
  - destruct S1. destruct (mem (ip t') st); [apply IH; auto|]. destruct (p =? length s); auto. apply IH; auto.
Qed.

(* ---- a run ends ---- *)
Hypothesis allgood : forall k, k <= L -> good k.
Hypothesis noeatmatch : forall p v w, eats isword P s p v w -> ~ ismatch P w.
Lemma inb_wq q : Forall inb q -> exists ns, wq q ns.
Proof.
  induction 1 as [|t q I F (ns & IH)]; [exists []; constructor|]. destruct (good_wt _ (allgood _ I)) as (n & W). exists (n :: ns). constructor; auto.
Qed.
Lemma rounds_end c0 w d : forall p q best n, length s + 1 - p = d -> (q <> [] -> p <= length s) -> Forall inb q -> Forall (at_ isword P s c0 p) q -> n = Z.of_nat (length q) ->
  exists F, forall fuel, F <= fuel -> rounds fuel w p q best n <> Hang /\ rounds fuel w p q best n <> Abort.
Proof.
  induction d as [|d IH]; intros p q best n D Lp Iq Aq En.
  - exists 1. intros [|fuel] K; [lia|]. cbn. assert (q = []) as -> by (destruct q; auto; specialize (Lp ltac:(discriminate)); lia). cbn in En. subst n. cbn. split; discriminate.
  - destruct q as [|t0 q0] eqn:Eq; [exists 1; intros [|fuel] K; [lia|]; cbn in En; subst n; cbn; split; discriminate|]. rewrite <- Eq in *. assert (Nq : q <> []) by (rewrite Eq; discriminate). specialize (Lp Nq).
    assert (Pn : (0 <? n)%Z = true) by (apply Z.ltb_lt; rewrite En, Eq; cbn; lia).
    destruct (inb_wq _ Iq) as (ns & W). pose proof (round_wt (S (list_sum ns)) w p q [] [] best n ns W ltac:(lia)) as R0.
    pose proof (round_inb (S (list_sum ns)) w p q [] [] best n Iq ltac:(constructor)) as Ri.
    pose proof (round_ok isword P s noeatmatch c0 w (S (list_sum ns)) p q [] [] best n Lp Aq ltac:(constructor) ltac:(congruence) ltac:(intros ? [])) as Ro.
    assert (Mo : forall f', S (list_sum ns) <= f' -> round f' w p q [] [] best n = round (S (list_sum ns)) w p q [] [] best n) by (intros f' Hf; apply round_mono; auto).
    destruct (round (S (list_sum ns)) w p q [] [] best n) as [e' b' n'|t e' n'| |]; try tauto; try congruence.
    + destruct Ro as (A1 & A2 & A3 & _). destruct (IH (p + 1) e' b' n' ltac:(lia) ltac:(intros X; specialize (A3 X); lia) Ri A2 ltac:(cbn in A1; lia)) as (F & HF).
      exists (S (F + S (list_sum ns))). intros [|fuel] K; [lia|]. cbn [Regex_Model.rounds]. rewrite Mo by lia. rewrite Pn. apply HF. lia.
    + exists (S (S (list_sum ns))). intros [|fuel] K; [lia|]. cbn [Regex_Model.rounds]. rewrite Mo by lia. rewrite Pn. split; discriminate.
Qed.
End Str.
End Term.

Lemma rangegen_noeow fuel : forall sub pc fin c, rangegen fuel sub pc fin = Some c -> ~ In Ieow c.
Proof.
  induction fuel as [|fuel IH]; intros sub pc fin c R; [discriminate|]. cbn [rangegen] in R.
  destruct sub as [|[[a0 b0] [e sub']] [|y rest]].
  - injection R as <-. intros [].
  - destruct e.
    + destruct sub'; [|discriminate]. injection R as <-. intros [H|[H|[]]]; discriminate.
    + destruct (rangegen fuel sub' (pc + 1) fin) as [c'|] eqn:R'; [|discriminate]. injection R as <-. intros [H|H]; [discriminate|eapply IH; eauto].
  - set (sub := (a0, b0, Node e sub') :: y :: rest) in *. clearbody sub. set (h := length sub / 2) in *. clearbody h.
    destruct (rangegen fuel (firstn h sub) (pc + 1) fin) as [c1|] eqn:R1; [|discriminate].
    destruct (rangegen fuel (skipn h sub) (pc + 1 + length c1) fin) as [c2|] eqn:R2; [|discriminate]. injection R as <-. intros [H|H]; [discriminate|]. apply in_app_or in H as [H|H]; [exact (IH _ _ _ _ R1 H)|exact (IH _ _ _ _ R2 H)].
Qed.
Lemma gen_eow t : okpat t -> haseow t = false -> forall pc c, gen t pc = Some c -> ~ In Ieow c.
Proof.
  induction t as [a IHa b IHb|a IHa b IHb|a IHa r|a IHa r|a IHa|ch|rl|m a IHa| | | |]; cbn [okpat haseow gen]; intros O He pc c G.
  - apply orb_false_iff in He as [Ha Hb]. destruct O as [Oa Ob]. destruct (gen a (pc + 1)) as [ca|] eqn:Ga; [|discriminate]. destruct (gen b (pc + 1 + length ca + 1)) as [cb|] eqn:Gb; [|discriminate]. injection G as <-.
    intros [H|H]; [discriminate|]. apply in_app_or in H as [H|[H|H]]; [eapply IHa; eauto|discriminate|eapply IHb; eauto].
  - apply orb_false_iff in He as [Ha Hb]. destruct O as [Oa Ob]. destruct (gen a pc) as [ca|] eqn:Ga; [|discriminate]. destruct (gen b (pc + length ca)) as [cb|] eqn:Gb; [|discriminate]. injection G as <-.
    intros H. apply in_app_or in H as [H|H]; [eapply IHa; eauto|eapply IHb; eauto].
  - destruct (gen a (pc + 1)) as [ca|] eqn:Ga; [|discriminate]. injection G as <-. intros [H|H]; [destruct r; discriminate|]. apply in_app_or in H as [H|[H|[]]]; [eapply IHa; eauto|discriminate].
  - destruct (gen a pc) as [ca|] eqn:Ga; [|discriminate]. destruct (gen a (pc + length ca + 1)) as [cb|] eqn:Gb; [|discriminate]. injection G as <-.
    intros H. apply in_app_or in H as [H|[H|H]]; [exact (IHa O He _ _ Ga H)|destruct r; discriminate|]. apply in_app_or in H as [H|[H|[]]]; [exact (IHa O He _ _ Gb H)|discriminate].
  - destruct (gen a (pc + 1)) as [ca|] eqn:Ga; [|discriminate]. injection G as <-. intros [H|H]; [discriminate|eapply IHa; eauto].
  - rewrite genchar_some in G by auto. injection G as <-. intros H. apply in_map_iff in H as (b & H & _). discriminate.
  - assert (Ok : classok rl) by (destruct O; split; auto). destruct (genranges_ok _ _ _ Ok G) as (fuel & sub & R & _). eapply rangegen_noeow; eauto.
  - destruct O as [Om O]. destruct (gen a (pc + 1)) as [ca|] eqn:Ga; [|discriminate]. injection G as <-. intros [H|H]; [discriminate|]. apply in_app_or in H as [H|[H|[]]]; [eapply IHa; eauto|discriminate].
  - injection G as <-. intros [H|[]]; discriminate.
  - injection G as <-. intros [H|[]]; discriminate.
  - injection G as <-. intros [H|[]]; discriminate.
  - discriminate.
Qed.
Lemma compile_noeow t P : okpat t -> haseow t = false -> compile t = Some P -> ~ In Ieow P.
Proof.
  intros O He C. apply compile_gen in C as (c & G & -> & _). intros H. apply in_app_or in H as [H|[H|[]]]; [|discriminate].
  eapply (gen_eow (Cap 0 t)); eauto. cbn; split; [lia|auto].
Qed.
Lemma compile_noeat isword t P s : okpat t -> compile t = Some P -> forall p v w, eats isword P s p v w -> ~ ismatch P w.
Proof.
  intros O C p v w (g & g' & St) (id & M). destruct (compile_last _ _ O C) as (_ & Sh & _ & Last).
  destruct (Sh _ _ M) as [(_ & Ok)|(Ew & _)]; [cbn in Ok; tauto|]. inversion St; subst; try lia; match goal with E : nth_error P v = Some _, F : v + 1 = lastpc P |- _ => pose proof (Last _ _ F E); discriminate end.
Qed.
