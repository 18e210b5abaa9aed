(* The emitted code does what the decision tree does. *)
From Coq Require Import Lia ZifyBool ZifyNat.
From Verif Require Import Base Match_Spec Match_Model Match_Proofs Match_Rows Match_Top Match_Emit.
Open Scope Z_scope.

Definition sub (x y : list instr) : Prop := exists p q, x = p ++ y ++ q.
Lemma sub_app x y a b : sub x y -> sub (a ++ x ++ b) y.
Proof. intros (p & q & ->). exists (a ++ p), (q ++ b). now rewrite <- !app_assoc. Qed.
Lemma sub_l x y a : sub x y -> sub (a ++ x) y.
Proof. intros H. rewrite <- (app_nil_r (a ++ x)), <- app_assoc. now apply sub_app. Qed.
Lemma sub_r x y b : sub x y -> sub (x ++ b) y.
Proof. intros H. now apply (sub_app x y [] b). Qed.
Lemma sub_cons x y a : sub x y -> sub (a :: x) y.
Proof. apply (sub_l x y [a]). Qed.
Definition labs (c : list instr) : list lbl := flat_map (fun i => match i with ILbl l => [l] | _ => [] end) c.
Lemma labs_app a b : labs (a ++ b) = labs a ++ labs b.
Proof. apply flat_map_app. Qed.
Lemma after_split l p q : NoDup (labs (p ++ ILbl l :: q)) -> after l (p ++ ILbl l :: q) = Some q.
Proof.
  induction p as [|i p IH]; cbn [app labs flat_map]; intros H.
  - cbn. destruct (lbl_eq_dec l l); congruence.
  - destruct i as [l'| | |]; cbn [after]; try (apply IH; exact H). fold (labs (p ++ ILbl l :: q)) in H. cbn in H. inversion H as [|? ? N H']; subst.
    destruct (lbl_eq_dec l l') as [<-|_]; [|now apply IH]. exfalso. apply N. rewrite labs_app. apply in_or_app. right. now left.
Qed.

Section D.
Variable d : dag.
Hypothesis W : wf (dnodes d).
Notation gen := (gen d). Notation label_of := (label_of d). Notation node_caps := (node_caps d).

Definition target (x : list instr) (c : nat) (nx : lbl) : Prop :=
  (node_caps c = [] /\ nx = label_of c) \/ exists n, nx = LGen n /\ sub x [ILbl nx; ICap (node_caps c); IJmp (label_of c)].
Fixpoint chain (x : list instr) (ld : load) (any : option nat) (lab : lbl) (es : list (Z * nat)) : Prop :=
  match es with
  | [] => True
  | (k, c) :: es' => exists nx f, sub x [ILbl lab; ICjmp ld k nx f] /\ target x c nx /\
      match es', any with [], Some a => f = label_of a | _, _ => (exists n, f = LGen n) /\ chain x ld any f es' end
  end.
Lemma chain_sub x x' ld any : (forall y, sub x y -> sub x' y) -> forall es lab, chain x ld any lab es -> chain x' ld any lab es.
Proof.
  intros S. induction es as [|[k c] es IH]; intros lab H; [exact Logic.I|]. destruct H as (nx & f & H1 & H2 & H3). exists nx, f. split; [now apply S|]. split.
  - destruct H2 as [H2|(n & E & H2)]; [now left|right; exists n; split; [exact E|now apply S]].
  - destruct es; [destruct any; [exact H3|destruct H3 as [A _]; split; [exact A|exact Logic.I]]|]. destruct any; destruct H3 as [A B]; split; auto.
Qed.
Definition fresh_labs (s s' : est) (x : list instr) : Prop := NoDup (labs x) /\
  forall l, In l (labs x) -> (exists j, l = LNode j /\ In j (emitted s') /\ ~ In j (emitted s)) \/ (exists n, l = LGen n /\ (fresh s <= n < fresh s')%nat).
Definition blocks (s s' : est) (x : list instr) : Prop := forall j ld es any nc, In j (emitted s') -> ~ In j (emitted s) -> nth_error (dnodes d) j = Some (NTest ld es any nc) ->
  chain x ld any (LNode j) es /\ (forall e, In e es -> In (snd e) (emitted s')) /\ (forall a, any = Some a -> In a (emitted s')).
Definition mono (s s' : est) : Prop := incl (emitted s) (emitted s') /\ (fresh s <= fresh s')%nat.
Lemma mono_trans a b c : mono a b -> mono b c -> mono a c.
Proof. intros [A B] [A' B']. split; [eapply incl_tran; eauto|lia]. Qed.
Lemma mono_refl a : mono a a. Proof. split; [apply incl_refl|lia]. Qed.
Lemma fresh_app a b c x y : mono a b -> mono b c -> fresh_labs a b x -> fresh_labs b c y -> fresh_labs a c (x ++ y).
Proof.
  intros [M1 M2] [M3 M4] [N1 F1] [N2 F2]. split.
  - rewrite labs_app. assert (D : forall l, In l (labs x) -> ~ In l (labs y)).
    { intros l Hx Hy. destruct (F1 l Hx) as [(j & -> & A & B)|(n & -> & A)]; destruct (F2 _ Hy) as [(j' & E & A' & B')|(n' & E & A')]; try discriminate; injection E as <-; [contradiction|lia]. }
    clear -N1 N2 D. induction (labs x) as [|l ls IH]; cbn; [exact N2|]. inversion N1; subst. constructor; [|apply IH; auto; intros; apply D; now right].
    intros C. apply in_app_or in C as [C|C]; [contradiction|]. apply (D l); [now left|exact C].
  - intros l Hl. rewrite labs_app in Hl. apply in_app_or in Hl as [Hl|Hl].
    + destruct (F1 l Hl) as [(j & -> & A & B)|(n & -> & A)]; [left; exists j; repeat split; [now apply M3|exact B]|right; exists n; split; [reflexivity|lia]].
    + destruct (F2 l Hl) as [(j & -> & A & B)|(n & -> & A)]; [left; exists j; repeat split; [exact A|intros Q; apply B; now apply M1]|right; exists n; split; [reflexivity|lia]].
Qed.
Lemma blocks_app a b c x y : mono a b -> mono b c -> blocks a b x -> blocks b c y -> blocks a c (x ++ y).
Proof.
  intros M1 M2 B1 B2 j ld es any nc H1 H2 N. destruct (in_dec Nat.eq_dec j (emitted b)) as [Hb|Hb].
  - destruct (B1 j ld es any nc Hb H2 N) as (X & Y & Z). split; [eapply chain_sub; [|exact X]; intros; now apply sub_r|]. split; [intros e He; apply M2; auto|intros q Hq; apply M2; auto].
  - destruct (B2 j ld es any nc H1 Hb N) as (X & Y & Z). split; [eapply chain_sub; [|exact X]; intros; now apply sub_l|]. split; auto.
Qed.
Lemma blocks_none a b x : emitted b = emitted a -> blocks a b x.
Proof. intros E j ld es any nc H1 H2. rewrite E in H1. contradiction. Qed.
Lemma fresh_none a b : fresh_labs a b [].
Proof. split; [constructor|intros l []]. Qed.

(* the loop over the literals, named *)
Definition loopg (fuel : nat) (ld : load) (any : option nat) : list (Z * nat) -> est -> option (list instr * est) :=
  fix loop (es : list (Z * nat)) (s : est) : option (list instr * est) :=
    match es with
    | [] => Some ([], s)
    | (k, c) :: es' =>
      let '(fail, emit, s) := match es', any with
        | [], Some a => (label_of a, [], s)
        | _, _ => (LGen (fresh s), [ILbl (LGen (fresh s))], mkest (emitted s) (S (fresh s))) end in
      let '(next, stub, s) := match node_caps c with
        | [] => (label_of c, [], s)
        | cs => (LGen (fresh s), [ILbl (LGen (fresh s)); ICap cs; IJmp (label_of c)], mkest (emitted s) (S (fresh s))) end in
      match gen fuel c s with
      | Some (x, s) => match loop es' s with
        | Some (y, s) => Some (ICjmp ld k next fail :: stub ++ x ++ emit ++ y, s)
        | None => None end
      | None => None end
    end.
Lemma gen_S fuel i s : gen (S fuel) i s =
  if existsb (Nat.eqb i) (emitted s) then Some ([], s) else
  match nth_error (dnodes d) i with
  | Some NAcc => Some ([IJmp (label_of i)], mkest (i :: emitted s) (fresh s))
  | Some (NTest ld es any _) =>
    match loopg fuel ld any es (mkest (i :: emitted s) (fresh s)) with
    | Some (x, s) => match any with
      | None => Some (ILbl (LNode i) :: x, s)
      | Some a => match gen fuel a s with Some (y, s) => Some (ILbl (LNode i) :: x ++ IJmp (label_of a) :: y, s) | None => None end
      end
    | None => None
    end
  | None => None
  end.
Proof. reflexivity. Qed.
Lemma loopg_cons fuel ld any k c es s : loopg fuel ld any ((k, c) :: es) s =
  let '(fail, emit, s) := match es, any with
    | [], Some a => (label_of a, [], s)
    | _, _ => (LGen (fresh s), [ILbl (LGen (fresh s))], mkest (emitted s) (S (fresh s))) end in
  let '(next, stub, s) := match node_caps c with
    | [] => (label_of c, [], s)
    | cs => (LGen (fresh s), [ILbl (LGen (fresh s)); ICap cs; IJmp (label_of c)], mkest (emitted s) (S (fresh s))) end in
  match gen fuel c s with
  | Some (x, s) => match loopg fuel ld any es s with
    | Some (y, s) => Some (ICjmp ld k next fail :: stub ++ x ++ emit ++ y, s)
    | None => None end
  | None => None end.
Proof. reflexivity. Qed.

Definition gspec (i : nat) (s : est) (x : list instr) (s' : est) : Prop := mono s s' /\ In i (emitted s') /\ fresh_labs s s' x /\ blocks s s' x.
Lemma fresh_cons_nolab a b i x : (forall l, i <> ILbl l) -> fresh_labs a b x -> fresh_labs a b (i :: x).
Proof. intros H. destruct i; [exfalso; eapply H; reflexivity| | |]; auto. Qed.
Lemma blocks_l a b x y : blocks a b x -> blocks a b (y ++ x).
Proof. intros B j ld es any nc H1 H2 N. destruct (B j ld es any nc H1 H2 N) as (X & Y). split; [eapply chain_sub; [|exact X]; intros; now apply sub_l|exact Y]. Qed.
Lemma blocks_weak a a' b x : emitted a' = emitted a -> blocks a' b x -> blocks a b x.
Proof. intros E B j ld es any nc H1 H2. apply B; [exact H1|now rewrite E]. Qed.

Lemma loop_spec fuel ld any : (forall c s, (c < fuel)%nat -> (c < length (dnodes d))%nat -> exists x s', gen fuel c s = Some (x, s') /\ gspec c s x s') ->
  forall es s, (forall e, In e es -> (snd e < fuel)%nat /\ (snd e < length (dnodes d))%nat) ->
  exists x s', loopg fuel ld any es s = Some (x, s') /\ mono s s' /\ (forall e, In e es -> In (snd e) (emitted s')) /\ fresh_labs s s' x /\ blocks s s' x /\
    forall lab, chain (ILbl lab :: x) ld any lab es.
Proof.
  intros HG. induction es as [|[k c] es IH]; intros s HE.
  - exists [], s. split; [reflexivity|]. split; [apply mono_refl|]. split; [intros e []|]. split; [apply fresh_none|]. split; [now apply blocks_none|]. intros lab. exact Logic.I.
  - destruct (HE _ (or_introl eq_refl)) as [Hc Hc']. cbn in Hc, Hc'. rewrite loopg_cons.
    (* the failure label *)
    set (q1 := match es, any with [], Some a => (label_of a, [], s) | _, _ => (LGen (fresh s), [ILbl (LGen (fresh s))], mkest (emitted s) (S (fresh s))) end).
    assert (Q1 : exists fail emit s1, q1 = (fail, emit, s1) /\ emitted s1 = emitted s /\ ((exists a, es = [] /\ any = Some a /\ fail = label_of a /\ emit = [] /\ s1 = s) \/
       (fail = LGen (fresh s) /\ emit = [ILbl fail] /\ fresh s1 = S (fresh s) /\ (es = [] -> any = None)))).
    { unfold q1. destruct es as [|e es]; [destruct any as [a|]|]; eexists _, _, _; split; try reflexivity; (split; [reflexivity|]); [left; now exists a|right; repeat split|right; repeat split; discriminate]. }
    clearbody q1. destruct Q1 as (fail & emit & s1 & -> & Em1 & Q1). cbn beta iota.
    set (q2 := match node_caps c with [] => (label_of c, [], s1) | p :: l => (LGen (fresh s1), [ILbl (LGen (fresh s1)); ICap (p :: l); IJmp (label_of c)], mkest (emitted s1) (S (fresh s1))) end).
    assert (Q2 : exists next stub s2, q2 = (next, stub, s2) /\ emitted s2 = emitted s1 /\ mono s1 s2 /\ fresh_labs s1 s2 stub /\ (forall x, sub x stub -> target x c next)).
    { unfold q2. unfold target. destruct (node_caps c) as [|c0 cs]; eexists _, _, _; split; try reflexivity; (split; [reflexivity|]).
      - split; [apply mono_refl|]. split; [apply fresh_none|]. intros x _. now left.
      - split; [split; [apply incl_refl|cbn; lia]|]. split; [split; [repeat constructor; intros []|]|].
        + intros l [<-|[]]. right. eexists. split; [reflexivity|]. cbn. lia.
        + intros x Hx. right. eexists. split; [reflexivity|]. exact Hx. }
    clearbody q2. destruct Q2 as (next & stub & s2 & -> & Em2 & M2 & F2 & T2). cbn beta iota.
    destruct (HG c s2 Hc Hc') as (x & s3 & -> & M3 & I3 & F3 & B3).
    destruct (IH s3 (fun e He => HE e (or_intror He))) as (y & s4 & -> & M4 & I4 & F4 & B4 & C4).
    eexists _, s4. split; [reflexivity|].
    assert (M1 : mono s s1).
    { split; [rewrite Em1; apply incl_refl|]. destruct Q1 as [(a & _ & _ & _ & _ & ->)|(_ & _ & E & _)]; lia. }
    assert (FE : fresh_labs s s1 emit).
    { destruct Q1 as [(a & _ & _ & _ & -> & ->)|(-> & -> & E & _)]; [apply fresh_none|]. split; [repeat constructor; intros []|]. intros l [<-|[]]. right. eexists. split; [reflexivity|]. lia. }
    split; [eapply mono_trans; [exact M1|eapply mono_trans; [exact M2|eapply mono_trans; eauto]]|].
    split; [intros e [<-|He]; [apply M4; exact I3|now apply I4]|].
    split; [|split].
    + apply fresh_cons_nolab; [discriminate|].
      (* labels of stub, x, emit, y in one order or another *)
      assert (FX : fresh_labs s s4 (emit ++ stub ++ x ++ y)).
      { eapply fresh_app; [exact M1| |exact FE|]; [eapply mono_trans; [exact M2|eapply mono_trans; eauto]|].
        eapply fresh_app; [exact M2| |exact F2|]; [eapply mono_trans; eauto|]. eapply fresh_app; eauto. }
      destruct FX as [ND FL]. split.
      * rewrite !labs_app in *. clear -ND.
        assert (P : forall (A : Type) (e s x y : list A), NoDup (e ++ s ++ x ++ y) -> NoDup (s ++ x ++ e ++ y)).
        { clear. intros A e s x y H. apply (Permutation.Permutation_NoDup (l := e ++ s ++ x ++ y)); [|exact H]. rewrite (app_assoc s x y), (app_assoc s x (e ++ y)). apply Permutation.Permutation_app_swap_app. }
        now apply P.
      * intros l Hl. apply FL. rewrite !labs_app, !in_app_iff in *. tauto.
    + apply (blocks_l s s4 _ [_]). apply blocks_l. apply blocks_weak with s2; [congruence|]. rewrite app_assoc. eapply blocks_app; [exact M3|exact M4| |exact B4].
      intros j l0 es0 any0 nc0 H1 H2 H3. destruct (B3 j l0 es0 any0 nc0 H1 H2 H3) as (X & Y). split; [eapply chain_sub; [|exact X]; intros; now apply sub_r|exact Y].
    + intros lab. exists next, fail. split; [exists [], (stub ++ x ++ emit ++ y); reflexivity|]. split.
      * apply T2. do 2 apply sub_cons. apply sub_r. exists [], []. now rewrite app_nil_r.
      * destruct Q1 as [(a & -> & -> & -> & _)|(-> & -> & _ & Q)]; [reflexivity|].
        assert (R : (exists n, LGen (fresh s) = LGen n) /\ chain (ILbl lab :: ICjmp ld k next (LGen (fresh s)) :: stub ++ x ++ [ILbl (LGen (fresh s))] ++ y) ld any (LGen (fresh s)) es).
        { split; [now exists (fresh s)|]. eapply chain_sub; [|exact (C4 (LGen (fresh s)))]. intros z Hz. do 2 apply sub_cons. apply sub_l. apply sub_l. exact Hz. }
        destruct es; [rewrite (Q eq_refl) in *; exact R|]. destruct any; exact R.
Qed.
Lemma gen_spec : forall fuel i s, (i < fuel)%nat -> (i < length (dnodes d))%nat -> exists x s', gen fuel i s = Some (x, s') /\ gspec i s x s'.
Proof.
  induction fuel as [|fuel IH]; intros i s Hi Hl; [lia|]. rewrite gen_S. destruct (existsb (Nat.eqb i) (emitted s)) eqn:E.
  - exists [], s. split; [reflexivity|]. apply existsb_exists in E as (j & Hj & E). apply Nat.eqb_eq in E. subst j. split; [apply mono_refl|]. split; [exact Hj|]. split; [apply fresh_none|now apply blocks_none].
  - assert (NI : ~ In i (emitted s)).
    { intros C. apply Bool.not_true_iff_false in E. apply E. apply existsb_exists. exists i. split; [exact C|apply Nat.eqb_refl]. }
    assert (M0 : mono s (mkest (i :: emitted s) (fresh s))) by (split; [intros z Hz; now right|cbn; lia]).
    destruct (nth_error (dnodes d) i) as [[|ld es any nc]|] eqn:N.
    + eexists _, _. split; [reflexivity|]. split; [exact M0|]. split; [now left|]. split; [split; [constructor|intros l []]|].
      intros j l0 es0 any0 nc0 [<-|Hj] Hn Nj; [congruence|contradiction].
    + pose proof (W i _ N) as [W1 W2].
      destruct (loop_spec fuel ld any IH es (mkest (i :: emitted s) (fresh s))) as (x & s1 & -> & M1 & I1 & F1 & B1 & C1).
      { intros e He. specialize (W1 e He). lia. }
      assert (TAIL : exists z s2, (match any with None => Some (ILbl (LNode i) :: x, s1) | Some a => match gen fuel a s1 with Some (y, s) => Some (ILbl (LNode i) :: x ++ IJmp (label_of a) :: y, s) | None => None end end) = Some (ILbl (LNode i) :: x ++ z, s2) /\
         mono s1 s2 /\ fresh_labs s1 s2 z /\ blocks s1 s2 z /\ (forall a, any = Some a -> In a (emitted s2))).
      { destruct any as [a|].
        - specialize (W2 a eq_refl). destruct (IH a s1 ltac:(lia) ltac:(lia)) as (y & s2 & -> & M2 & I2 & F2 & B2). eexists _, s2. split; [reflexivity|]. split; [exact M2|].
          split; [exact F2|]. split; [apply (blocks_l s1 s2 y [_]); exact B2|]. intros b Hb. injection Hb as <-. exact I2.
        - exists [], s1. rewrite app_nil_r. split; [reflexivity|]. split; [apply mono_refl|]. split; [apply fresh_none|]. split; [now apply blocks_none|]. discriminate. }
      destruct TAIL as (z & s2 & -> & M2 & F2 & B2 & A2). eexists _, s2. split; [reflexivity|].
      assert (Mi : mono (mkest (i :: emitted s) (fresh s)) s2) by (eapply mono_trans; eauto).
      split; [eapply mono_trans; eauto|]. split; [apply Mi; now left|]. split.
      * assert (FI : fresh_labs s (mkest (i :: emitted s) (fresh s)) [ILbl (LNode i)]).
        { split; [repeat constructor; intros []|]. intros l [<-|[]]. left. exists i. repeat split; [now left|exact NI]. }
        apply (fresh_app s (mkest (i :: emitted s) (fresh s)) s2 [ILbl (LNode i)]); [exact M0|exact Mi|exact FI|]. apply (fresh_app _ s1); assumption.
      * intros j l0 es0 any0 nc0 Hj Hn Nj. destruct (Nat.eq_dec j i) as [->|NE].
        -- rewrite N in Nj. injection Nj as <- <- <- <-. split; [eapply chain_sub; [|exact (C1 (LNode i))]; intros q Hq; apply (sub_r (ILbl (LNode i) :: x) q z Hq)|].
           split; [intros e He; apply M2; now apply I1|exact A2].
        -- assert (BB : blocks (mkest (i :: emitted s) (fresh s)) s2 (x ++ z)) by (apply (blocks_app _ s1); assumption).
           destruct (BB j l0 es0 any0 nc0 Hj) as (X & Y); [|exact Nj|].
           ++ intros [C|C]; [congruence|contradiction].
           ++ split; [eapply chain_sub; [|exact X]; intros; now apply sub_cons|exact Y].
    + apply nth_error_None in N. lia.
Qed.

(* running *)
Section Run.
Variables (C : list instr) (v : val) (E : list nat).
Hypothesis ND : NoDup (labs C).
Hypothesis HB : forall j ld es any nc, In j E -> nth_error (dnodes d) j = Some (NTest ld es any nc) ->
  chain C ld any (LNode j) es /\ (forall e, In e es -> In (snd e) E) /\ (forall a, any = Some a -> In a E).
Definition goes (l : lbl) (a : nat) : Prop := forall env, match l with LArm b => a = b
  | _ => exists q n env', after l C = Some q /\ runc n C q v env = Done a env' end.
Lemma after_sub l q : sub C (ILbl l :: q) -> exists r, after l C = Some (q ++ r).
Proof. intros (p & r & EC). exists r. rewrite EC in ND |- *. cbn [app] in *. now apply after_split. Qed.
Lemma goes_jump l a : goes l a -> forall env, exists n env', (match l with LArm b => Done b env | _ => match after l C with Some r => runc n C r v env | None => Lost end end) = Done a env'.
Proof. intros G env. specialize (G env). destruct l; [|exists O, env; now rewrite G|]; destruct G as (q & m & env' & -> & R); now exists m, env'. Qed.
Lemma target_goes c nx a : target C c nx -> goes (label_of c) a -> goes nx a.
Proof.
  intros [[_ ->]|(n & -> & Hs)] G; [exact G|]. intros env. destruct (after_sub _ _ Hs) as (r & ->).
  destruct (goes_jump _ _ G (env ++ evalcaps v (node_caps c))) as (m & env' & R). eexists _, (S (S m)), env'. split; [reflexivity|]. exact R.
Qed.
Lemma chain_goes ld any k0 a : loadv ld v = Some (VLit k0) -> forall es lab, es <> [] -> chain C ld any lab es -> (forall b, lab <> LArm b) ->
  match find (fun e => fst e =? k0) es with
  | Some e => goes (label_of (snd e)) a -> goes lab a
  | None => match any with Some y => goes (label_of y) a -> goes lab a | None => True end
  end.
Proof.
  intros L. induction es as [|[k c] es IH]; intros lab NE H NL; [congruence|]. destruct H as (nx & f & H1 & H2 & H3). cbn [find fst].
  destruct (after_sub _ _ H1) as (r & A1).
  assert (ST : forall l, (if k0 =? k then nx else f) = l -> goes l a -> goes lab a).
  { intros l El G env. destruct (goes_jump _ _ G env) as (n & env' & R). destruct lab as [i|b|i]; [|exfalso; eapply NL; reflexivity|];
      (eexists _, (S n), env'; split; [exact A1|]; cbn [runc app]; rewrite L, El; exact R). }
  rewrite (Z.eqb_sym k k0). destruct (k0 =? k) eqn:Q.
  - cbn [snd]. intros G. apply (ST nx eq_refl). eapply target_goes; eauto.
  - destruct es as [|e es].
    + cbn [find]. destruct any as [y|]; [|exact Logic.I]. subst f. apply (ST _ eq_refl).
    + assert (H3' : (exists n, f = LGen n) /\ chain C ld any f (e :: es)) by (destruct any; exact H3). destruct H3' as [(n & ->) H4].
      specialize (IH (LGen n) ltac:(discriminate) H4 ltac:(discriminate)). destruct (find _ (e :: es)); [|destruct any; [|exact Logic.I]]; intros G; apply (ST _ eq_refl); now apply IH.
Qed.
Hypothesis HN : forall i ld es any nc, nth_error (dnodes d) i = Some (NTest ld es any nc) -> es <> [].
Lemma exec_goes r : forall i, In i E -> exec (S i) (dnodes d) i v = Accept r -> goes (label_of i) (fst (fst (armrow d r))).
Proof.
  induction i as [i IH] using lt_wf_ind. intros Hi X. cbn [exec] in X. unfold Match_Emit.label_of. destruct (nth_error (dnodes d) i) as [[|ld es any nc]|] eqn:N; [|  |discriminate].
  - injection X as <-. intros env. reflexivity.
  - destruct (loadv ld v) as [[k| | | |]|] eqn:L; try discriminate. destruct (HB i _ _ _ _ Hi N) as (CH & I1 & I2). pose proof (W i _ N) as [W1 W2].
    pose proof (chain_goes ld any k (fst (fst (armrow d r))) L es (LNode i) (HN _ _ _ _ _ N) CH ltac:(discriminate)) as CG.
    destruct (find (fun e => fst e =? k) es) as [e|] eqn:F.
    + apply find_some in F as [F _]. apply CG. specialize (W1 e F). apply IH; [exact W1|now apply I1|]. now rewrite <- (exec_fuel _ v W (snd e) i W1).
    + destruct any as [y|]; [|discriminate]. apply CG. specialize (W2 y eq_refl). apply IH; [exact W2|now apply I2|]. now rewrite <- (exec_fuel _ v W y i W2).
Qed.
End Run.

Theorem matchcode_run v r : (root d < length (dnodes d))%nat -> (forall i ld es any nc, nth_error (dnodes d) i = Some (NTest ld es any nc) -> es <> []) ->
  exec (S (root d)) (dnodes d) (root d) v = Accept r -> exists code fuel env, matchcode d = Some code /\ runc fuel code code v [] = Done (fst (fst (armrow d r))) env.
Proof.
  intros HR HN X. destruct (gen_spec (S (root d)) (root d) (mkest [] O) (Nat.lt_succ_diag_r _) HR) as (x & s' & G & M & I & [ND FL] & B).
  unfold matchcode. rewrite G. cbn [option_map fst]. exists x.
  assert (GO : goes x v (label_of (root d)) (fst (fst (armrow d r)))).
  { eapply exec_goes with (E := emitted s'); [exact ND| |exact HN|exact I|exact X]. intros j ld es any nc Hj N. eapply B; [exact Hj|intros []|exact N]. }
  rewrite gen_S in G. cbn [existsb emitted] in G. unfold Match_Emit.label_of in GO. destruct (nth_error (dnodes d) (root d)) as [[|ld es any nc]|] eqn:N; [| |discriminate].
  - injection G as <- <-. specialize (GO []). cbn in GO. exists 1%nat, []. split; [reflexivity|]. cbn. unfold Match_Emit.label_of. now rewrite N, GO.
  - specialize (GO []). destruct GO as (q & n & env & A & R).
    assert (EX : exists y, x = ILbl (LNode (root d)) :: y).
    { destruct (loopg _ _ _ _ _) as [[y t]|]; [|discriminate]. destruct any as [a|]; [destruct (gen (root d) a t) as [[z t']|]; [|discriminate]|]; injection G as <- _; eexists; reflexivity. }
    destruct EX as (y & ->). cbn [after] in A. destruct (lbl_eq_dec (LNode (root d)) (LNode (root d))) as [_|Q]; [|congruence]. injection A as <-. exists (S n), env. split; [reflexivity|exact R].
Qed.
End D.

(* ---- every test compares with something ---- *)
Definition noempty (ns : list node) : Prop := forall i ld es any nc, nth_error ns i = Some (NTest ld es any nc) -> es <> [].
Lemma nth_error_upd {A} (l : list A) : forall i j x y, nth_error (upd l i x) j = Some y -> y = x \/ nth_error l j = Some y.
Proof. induction l as [|a l IH]; intros [|i] [|j] x y H; cbn in *; auto; [left; congruence|]. eapply IH; eauto. Qed.
Lemma mknode_noempty s l es any nc i s' : mknode s l es any nc = Ok (i, s') -> es <> [] -> noempty (nodes s) -> noempty (nodes s').
Proof.
  unfold mknode. destruct (search _ _ _ _ _) as [j| |]; [| |discriminate]; intros E NE H; injection E as <- <-; intros k ld es' any' nc' N; cbn [nodes] in N.
  - apply nth_error_upd in N as [N|N]; [now injection N as -> -> -> ->|eapply H; eauto].
  - destruct (Nat.lt_ge_cases k (length (nodes s))) as [Hk|Hk].
    + rewrite nth_error_app1 in N by exact Hk. eapply H; eauto.
    + rewrite nth_error_app2 in N by exact Hk. destruct (k - length (nodes s))%nat as [|n]; cbn in N; [now injection N as -> -> -> ->|destruct n; discriminate].
Qed.
Lemma compile_noempty : forall fuel rows s d s', compile fuel rows s = Ok (d, s') -> allupath rows -> noempty (nodes s) -> noempty (nodes s').
Proof.
  induction fuel as [|fuel IH]; intros rows s d s' E U H; [discriminate|]. destruct rows as [|r0 rows]; [discriminate|]. rewrite compile_S in E.
  destruct (find iscons (rslots r0)) as [sl|] eqn:F; [|injection E as <- <-; exact H]. apply find_some in F as [F1 F2].
  assert (HE : forall cs t es t1, edges_loop fuel (spath sl) (r0 :: rows) cs t = Ok (es, t1) -> noempty (nodes t) -> noempty (nodes t1) /\
    forall k, In k cs -> filter_map (project k (spath sl)) (r0 :: rows) <> [] -> es <> []).
  { induction cs as [|k cs IHc]; intros t0 es t1 E0 H0; [cbn in E0; injection E0 as <- <-; split; [exact H0|intros k []]|]. rewrite edges_cons in E0.
    destruct (filter_map (project k (spath sl)) (r0 :: rows)) as [|p0 pr] eqn:Ep.
    - destruct (IHc _ _ _ E0 H0) as [A B]. split; [exact A|]. intros j [<-|Hj] Hn; [congruence|eapply B; eauto].
    - destruct (compile fuel (p0 :: pr) t0) as [[e t2]| | | | |] eqn:Ec; try discriminate. destruct (edges_loop fuel _ _ cs t2) as [[es' t3]| | | | |] eqn:El; try discriminate. injection E0 as <- <-.
      assert (H2 : noempty (nodes t2)) by (eapply IH; [exact Ec| |exact H0]; rewrite <- Ep; now apply allupath_project). split; [exact (proj1 (IHc _ _ _ El H2))|discriminate]. }
  destruct (edges_loop fuel _ _ _ s) as [[es s1]| | | | |] eqn:El; try discriminate. destruct (HE _ _ _ _ El H) as [H1 NE0].
  assert (NE : es <> []).
  { destruct (spat sl) as [k|] eqn:S; [|unfold iscons in F2; rewrite S in F2; discriminate]. apply (NE0 k).
    - apply cset_in. exists r0, sl. repeat split; auto. now left.
    - assert (U0 : upath (rslots r0)) by (unfold allupath in U; rewrite Forall_forall in U; apply U; now left).
      assert (P : exists y, project k (spath sl) r0 = Some y).
      { unfold project. rewrite (proj2 (find_at_spec (spath sl) (rslots r0) U0 sl)), S, Z.eqb_refl by (now split). eexists; reflexivity. }
      destruct P as (y & P). intros C. assert (I : In y (filter_map (project k (spath sl)) (r0 :: rows))) by (apply in_filter_map; exists r0; split; [now left|exact P]). rewrite C in I. exact I. }
  clear HE El NE0. pose proof (allupath_filter (is_default (spath sl)) _ U) as U2. destruct (filter (is_default (spath sl)) (r0 :: rows)) as [|d0 ds]; [eapply mknode_noempty; eauto|].
  destruct (compile fuel (d0 :: ds) s1) as [[a s2]| | | | |] eqn:Ec; try discriminate. eapply mknode_noempty; [exact E|exact NE|]. eapply IH; eauto.
Qed.

(* ---- from arms to code ---- *)
Lemma altlist_arm ps : forall i x, In x (altlist i ps) -> exists p, (i <= fst (fst x))%nat /\ nth_error ps (fst (fst x) - i) = Some p /\ snd x = isor p /\ In (snd (fst x)) (alts p).
Proof.
  unfold altlist. intros i x H. apply in_flat_map in H as ([k p] & H1 & H2). apply number_in in H1 as [H1 H3]. cbn in *. apply in_map_iff in H2 as (q & <- & H2). exists p. cbn. auto.
Qed.
Theorem gendtree_code ps t d v i p : okpats ps t -> gendtree ps t = Ok d -> wtv v t -> first_arm ps v = Some i -> nth_error ps i = Some p ->
  exists code fuel env, matchcode d = Some code /\ runc fuel code code v [] = Done i env /\
    (isor p = false -> vars d i v env = map (fun x => (fst x, Some (snd x))) (bind p v)).
Proof.
  intros OK G Hv F Np. pose proof (gendtree_run ps t OK d v G Hv) as R. rewrite F in R. destruct R as (r & cs & b & p' & X & Na & Np' & Cb). rewrite Np in Np'. injection Np' as <-.
  unfold gendtree in G. fold (rows_of (allrows ps t)) in G. destruct (negb (caps_ok _)); [discriminate|]. destruct (compile _ (rows_of (allrows ps t)) _) as [[n s]| | | | |] eqn:Ec; try discriminate.
  destruct (find _ (number 0 (allrows ps t))); [discriminate|]. destruct (verifymatch _ _ _); [|discriminate].
  destruct (compile_rows ps t OK _ _ _ Ec) as [W [LR _]]. injection G as <-.
  assert (NE : noempty (nodes s)).
  { eapply compile_noempty; [exact Ec|apply rows_up|]. intros j ld es any nc N. cbn in N. rewrite nth_error_map in N. destruct (nth_error (allrows ps t) j); discriminate. }
  match type of Na with nth_error (arms ?D) _ = _ => destruct (matchcode_run D W v r LR NE X) as (code & fuel & env & M & RC) end. exists code, fuel, env. split; [exact M|]. unfold armrow in RC. rewrite (nth_error_nth _ _ _ Na) in RC. split; [exact RC|].
  intros IO. unfold vars. cbn [arms] in *. clear X M RC Ec W LR NE. rewrite (allrows_alts ps t OK) in *.
  (* an arm without alternatives has one row *)
  assert (UN : forall j x, nth_error (map (fun x : nat * frow => (fst x, caps (snd x), hasor (snd x))) (map (altrow t) (altlist 0 ps))) j = Some x -> fst (fst x) = i -> x = (i, pcp p t LVar, false)).
  { intros j x N E. rewrite !nth_error_map in N. destruct (nth_error (altlist 0 ps) j) as [[[k q] o]|] eqn:Nl; [|discriminate]. injection N as <-. cbn in E. subst k. apply nth_error_In, altlist_arm in Nl as (p' & _ & P1 & P2 & P3). cbn in *.
    rewrite Nat.sub_0_r, Np in P1. injection P1 as <-. rewrite P2, IO. destruct p; cbn in P3; try discriminate IO; destruct P3 as [<-|[]]; reflexivity. }
  pose proof (UN r _ Na eq_refl) as E. injection E as -> ->.
  destruct (find _ _) as [y|] eqn:Q.
  - apply find_some in Q as [Q1 Q2]. apply Nat.eqb_eq in Q2. apply In_nth_error in Q1 as (j & Q1). rewrite (UN j y Q1 Q2). exact Cb.
  - apply nth_error_In in Na. apply (find_none _ _ Q) in Na. cbn in Na. rewrite Nat.eqb_refl in Na. discriminate.
Qed.
