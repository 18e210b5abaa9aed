(* From patterns to rows: a row holds on a value exactly when the pattern matches it, and the rows are consistent. *)
From Coq Require Import Lia ZifyBool ZifyNat.
From Verif Require Import Base Match_Spec Match_Model Match_Proofs.
Open Scope Z_scope.

Section PatInd.
Variable P : pat -> Prop.
Hypothesis HG : P PGap.
Hypothesis HV : forall x, P (PVar x).
Hypothesis HL : forall k, P (PLit k).
Hypothesis HS : forall bs, P (PStr bs).
Hypothesis HP : forall p, P p -> P (PPtr p).
Hypothesis HT : forall ps, Forall P ps -> P (PTup ps).
Hypothesis HU0 : forall tag, P (PUn tag None).
Hypothesis HU1 : forall tag p, P p -> P (PUn tag (Some p)).
Hypothesis HC : forall p, P p -> P (PConst p).
Hypothesis HO : forall p q, P p -> P q -> P (POr p q).
Fixpoint pat_ind' (p : pat) : P p :=
  match p with
  | PGap => HG | PVar x => HV x | PLit k => HL k | PStr bs => HS bs | PPtr p => HP p (pat_ind' p)
  | PTup ps => HT ps ((fix go ps := match ps return Forall P ps with [] => Forall_nil P | p :: ps => Forall_cons p (pat_ind' p) (go ps) end) ps)
  | PUn tag None => HU0 tag | PUn tag (Some p) => HU1 tag p (pat_ind' p) | PConst p => HC p (pat_ind' p) | POr p q => HO p q (pat_ind' p) (pat_ind' q)
  end.
End PatInd.

(* the slots and captures of a plain pattern *)
Fixpoint psl (p : pat) (t : ty) (l : load) (pi : path) : list slot :=
  match p, t with
  | PGap, _ | PVar _, _ => [mkslot pi None l wildty]
  | PLit k, TSc lo n c => [mkslot pi (Some k) l (lo, n, c)]
  | PStr bs, _ => mkslot (pi ++ [O]) (Some (Z.of_nat (length bs))) (LLen l) U64 :: strslots bs 0 l pi
  | PPtr p, TPtr t => psl p t (LDeref l) (pi ++ [O])
  | PUn tag pl, TUn us => let n := Z.of_nat (length us) in
    mkslot (pi ++ [O]) (Some (Z.of_nat tag)) (LTag l) (0, n, n) ::
    match pl, nth_error us tag with Some p, Some (Some u) => psl p u (LData l) (pi ++ [1%nat]) | _, _ => [] end
  | PTup ps, TTup ts => (fix go ps ts i := match ps, ts with p :: ps, t :: ts => psl p t (LElt l i) (pi ++ [i]) ++ go ps ts (S i) | _, _ => [] end) ps ts O
  | _, _ => []
  end.
Fixpoint psls (ps : list pat) (ts : list ty) (l : load) (pi : path) (i : nat) : list slot :=
  match ps, ts with p :: ps, t :: ts => psl p t (LElt l i) (pi ++ [i]) ++ psls ps ts l pi (S i) | _, _ => [] end.
Lemma psl_tup ps ts l pi : psl (PTup ps) (TTup ts) l pi = psls ps ts l pi 0.
Proof. cbn. generalize O. revert ts. induction ps as [|p ps IH]; intros [|t ts] i; cbn; try reflexivity; now rewrite IH. Qed.
Fixpoint pcp (p : pat) (t : ty) (l : load) : list (nat * load) :=
  match p, t with
  | PVar x, _ => [(x, l)]
  | PPtr p, TPtr t => pcp p t (LDeref l)
  | PUn tag pl, TUn us => match pl, nth_error us tag with Some p, Some (Some u) => pcp p u (LData l) | _, _ => [] end
  | PTup ps, TTup ts => (fix go ps ts i := match ps, ts with p :: ps, t :: ts => pcp p t (LElt l i) ++ go ps ts (S i) | _, _ => [] end) ps ts O
  | _, _ => []
  end.
Fixpoint pcps (ps : list pat) (ts : list ty) (l : load) (i : nat) : list (nat * load) :=
  match ps, ts with p :: ps, t :: ts => pcp p t (LElt l i) ++ pcps ps ts l (S i) | _, _ => [] end.
Lemma pcp_tup ps ts l : pcp (PTup ps) (TTup ts) l = pcps ps ts l 0.
Proof. cbn. generalize O. revert ts. induction ps as [|p ps IH]; intros [|t ts] i; cbn; try reflexivity; now rewrite IH. Qed.
(* elementwise forms of the specification's predicates *)
Fixpoint wtps (ps : list pat) (ts : list ty) : Prop := match ps, ts with [], [] => True | p :: ps, t :: ts => wtp p t /\ wtps ps ts | _, _ => False end.
Fixpoint wtvs (ps : list val) (ts : list ty) : Prop := match ps, ts with [], [] => True | p :: ps, t :: ts => wtv p t /\ wtvs ps ts | _, _ => False end.
Fixpoint pmatchs (ps : list pat) (vs : list val) : bool := match ps, vs with [], [] => true | p :: ps, v :: vs => pmatch p v && pmatchs ps vs | _, _ => false end.
Fixpoint binds (ps : list pat) (vs : list val) : list (nat * val) := match ps, vs with p :: ps, v :: vs => bind p v ++ binds ps vs | _, _ => [] end.
Lemma wtp_tup ps ts : wtp (PTup ps) (TTup ts) = wtps ps ts.
Proof. cbn. revert ts. induction ps as [|p ps IH]; intros [|t ts]; cbn; try reflexivity; now rewrite IH. Qed.
Lemma wtv_tup ps ts : wtv (VTup ps) (TTup ts) = wtvs ps ts.
Proof. cbn. revert ts. induction ps as [|p ps IH]; intros [|t ts]; cbn; try reflexivity; now rewrite IH. Qed.
Lemma pmatch_tup ps vs : pmatch (PTup ps) (VTup vs) = pmatchs ps vs.
Proof. cbn. revert vs. induction ps as [|p ps IH]; intros [|t ts]; cbn; try reflexivity; now rewrite IH. Qed.
Lemma bind_tup ps vs : bind (PTup ps) (VTup vs) = binds ps vs.
Proof. cbn. revert vs. induction ps as [|p ps IH]; intros [|t ts]; cbn; try reflexivity; now rewrite IH. Qed.

Definition addf (f : frow) (ss : list slot) (cs : list (nat * load)) : frow := mkfrow (slots f ++ ss) (caps f ++ cs) (hasor f).
Lemma addrec_plain p : forall t l pi f, plain p = true -> wtp p t -> addrec p t l pi f = (addf f (psl p t l pi) (pcp p t l), []).
Proof.
  induction p as [|x|k|bs|p IH|ps IH|tag|tag p IH|p IH|p q IH1 IH2] using pat_ind'; intros t l pi f Hp Hw; try discriminate Hp.
  - cbn. unfold addslot, addf. now rewrite app_nil_r.
  - reflexivity.
  - destruct t; cbn in Hw; try tauto. cbn. unfold addslot, addf. now rewrite app_nil_r.
  - cbn. unfold addf. now rewrite app_nil_r.
  - destruct t; cbn in Hw; try tauto. cbn. now apply IH.
  - destruct t as [| | |ts|]; try (cbn in Hw; tauto). rewrite psl_tup, pcp_tup. rewrite wtp_tup in Hw. cbn [plain] in Hp. cbn [addrec].
    generalize O. revert ts f Hw. induction ps as [|p ps IHl]; intros [|t ts] f Hw i; cbn in Hw; try tauto.
    + cbn. unfold addf. rewrite !app_nil_r. now destruct f.
    + inversion IH as [|? ? IHp IHps]; subst. cbn in Hp. apply andb_prop in Hp as [Hp Hps]. destruct Hw as [Hw Hws]. cbn [psls pcps].
      rewrite IHp by assumption. rewrite (IHl IHps Hps ts _ Hws (S i)). unfold addf. cbn. now rewrite !app_assoc.
  - destruct t as [| | | |us]; cbn in Hw; try tauto. cbn. unfold addslot, addf. now rewrite app_nil_r.
  - destruct t as [| | | |us]; cbn in Hw; try tauto. cbn. destruct (nth_error us tag) as [[u|]|]; try tauto. rewrite IH by assumption. unfold addf, addslot. cbn. now rewrite <- app_assoc.
Qed.
Lemma addrec_alts p : forall t l pi f, topor p = true -> wtp p t ->
  (let '(f1, e) := addrec p t l pi f in f1 :: e) = map (fun q => mkfrow (slots f ++ psl q t l pi) (caps f ++ pcp q t l) (hasor f || isor p)) (alts p).
Proof.
  unfold topor. induction p as [|x|k|bs|p IH|ps IH|tag|tag p IH|p IH|p q IH1 IH2] using pat_ind'; intros t l pi f Hp Hw;
    try (cbn [alts forallb] in Hp; rewrite Bool.andb_true_r in Hp; rewrite addrec_plain by assumption; cbn [alts map isor]; unfold addf; rewrite Bool.orb_false_r; reflexivity).
  cbn [alts] in Hp. rewrite forallb_app in Hp. apply andb_prop in Hp as [Hp Hq]. cbn [wtp] in Hw.
  assert (Hw' : wtp p t /\ wtp q t) by (destruct t; exact Hw). destruct Hw' as [Hwp Hwq].
  cbn [addrec alts isor]. rewrite map_app, Bool.orb_true_r.
  specialize (IH1 t l pi (mkfrow (slots f) (caps f) true) Hp Hwp). specialize (IH2 t l pi (mkfrow (slots f) (caps f) true) Hq Hwq). cbn [slots caps hasor orb] in *.
  destruct (addrec p t l pi _) as [f1 e1]. destruct (addrec q t l pi _) as [f2 e2]. rewrite <- IH1, <- IH2. reflexivity.
Qed.

(* places *)
Definition under (pi : path) (s : slot) : Prop := exists q, spath s = pi ++ q.
Lemma under_app pi i s : under (pi ++ [i]) s -> exists q, spath s = pi ++ i :: q.
Proof. intros (q & E). exists q. now rewrite E, <- app_assoc. Qed.
Lemma strslots_in bs : forall i l pi s, In s (strslots bs i l pi) -> exists j b, (i <= j)%nat /\ nth_error bs (j - i) = Some b /\ s = mkslot (pi ++ [S j]) (Some b) (LByte l j) BYTE.
Proof.
  induction bs as [|b bs IH]; intros i l pi s H; cbn in H; [tauto|]. destruct H as [<-|H].
  - exists i, b. rewrite Nat.sub_diag. repeat split. lia.
  - destruct (IH _ _ _ _ H) as (j & c & Hj & E & ->). exists j, c. replace (j - i)%nat with (S (j - S i)) by lia. repeat split; [lia|exact E].
Qed.
Lemma psl_under p : forall t l pi s, plain p = true -> wtp p t -> In s (psl p t l pi) -> under pi s.
Proof.
  induction p as [|x|k|bs|p IH|ps IH|tag|tag p IH|p IH|p q IH1 IH2] using pat_ind'; intros t l pi s Hp Hw H; try discriminate Hp.
  - destruct H as [<-|[]]. exists []. cbn. now rewrite app_nil_r.
  - destruct H as [<-|[]]. exists []. cbn. now rewrite app_nil_r.
  - destruct t; cbn in Hw; try tauto. destruct H as [<-|[]]. exists []. cbn. now rewrite app_nil_r.
  - cbn in H. destruct H as [<-|H]; [now exists [O]|]. apply strslots_in in H as (j & b & _ & _ & ->). now exists [S j].
  - destruct t; cbn in Hw; try tauto. cbn in H. apply IH in H; try assumption. apply under_app in H as (q & E). now exists (O :: q).
  - destruct t as [| | |ts|]; try (cbn in Hw; tauto). rewrite wtp_tup in Hw. cbn [plain] in Hp. rewrite psl_tup in H.
    revert ts Hw H. generalize O. induction ps as [|p ps IHl]; intros i [|t ts] Hw H; cbn in Hw; try tauto; [destruct H|].
    inversion IH as [|? ? IHp IHps]; subst. cbn in Hp. apply andb_prop in Hp as [Hp Hps]. cbn in H. apply in_app_or in H as [H|H].
    + apply IHp in H; try tauto. apply under_app in H as (q & E). now exists (i :: q).
    + eapply (IHl IHps Hps (S i) ts (proj2 Hw) H).
  - destruct t as [| | | |us]; cbn in Hw; try tauto. cbn in H. destruct H as [<-|[]]. now exists [O].
  - destruct t as [| | | |us]; cbn in Hw; try tauto. cbn in H. destruct (nth_error us tag) as [[u|]|]; try tauto. destruct H as [<-|H]; [now exists [O]|].
    apply IH in H; try assumption. apply under_app in H as (q & E). now exists (1%nat :: q).
Qed.
Lemma app_cons_inj {A} (pi : list A) i j a b : pi ++ i :: a = pi ++ j :: b -> i = j /\ a = b.
Proof. intros H. apply app_inv_head in H. split; congruence. Qed.
Lemma psls_under ps : forall ts l pi i s, forallb plain ps = true -> wtps ps ts -> In s (psls ps ts l pi i) -> exists j q, (i <= j)%nat /\ spath s = pi ++ j :: q.
Proof.
  induction ps as [|p ps IH]; intros [|t ts] l pi i s Hp Hw H; cbn in Hw; try tauto; [destruct H|]. cbn in Hp. apply andb_prop in Hp as [Hp Hps]. cbn in H.
  apply in_app_or in H as [H|H].
  - apply psl_under in H; try tauto. apply under_app in H as (q & E). exists i, q. split; [lia|exact E].
  - apply IH in H; try tauto. destruct H as (j & q & Hj & E). exists j, q. split; [lia|exact E].
Qed.
Lemma upath_app a b : upath a -> upath b -> (forall x y, In x a -> In y b -> spath x <> spath y) -> upath (a ++ b).
Proof.
  unfold upath. induction a as [|x a IH]; cbn; intros Ha Hb H; [exact Hb|]. inversion Ha; subst. constructor.
  - rewrite map_app, in_app_iff. intros [C|C]; [contradiction|]. apply in_map_iff in C as (y & E & C). apply (H x y); auto.
  - apply IH; auto.
Qed.
Lemma strslots_upath bs : forall i l pi, upath (strslots bs i l pi).
Proof.
  induction bs as [|b bs IH]; intros i l pi; [constructor|]. cbn. apply (upath_app [_]); [repeat constructor; tauto|apply IH|].
  intros x y [<-|[]] Hy. apply strslots_in in Hy as (j & c & Hj & _ & ->). cbn. intros C. apply app_cons_inj in C as [C _]. lia.
Qed.
Lemma psl_upath p : forall t l pi, plain p = true -> wtp p t -> upath (psl p t l pi).
Proof.
  induction p as [|x|k|bs|p IH|ps IH|tag|tag p IH|p IH|p q IH1 IH2] using pat_ind'; intros t l pi Hp Hw; try discriminate Hp.
  - repeat constructor; tauto.
  - repeat constructor; tauto.
  - destruct t; cbn in Hw; try tauto. repeat constructor; tauto.
  - cbn. apply (upath_app [_]); [repeat constructor; tauto|apply strslots_upath|].
    intros x y [<-|[]] Hy. apply strslots_in in Hy as (j & c & Hj & _ & ->). cbn. intros C. apply app_cons_inj in C as [C _]. discriminate.
  - destruct t; cbn in Hw; try tauto. now apply IH.
  - destruct t as [| | |ts|]; try (cbn in Hw; tauto). rewrite wtp_tup in Hw. cbn [plain] in Hp. rewrite psl_tup.
    revert ts Hw. generalize O. induction ps as [|p ps IHl]; intros i [|t ts] Hw; cbn in Hw; try tauto; [constructor|].
    inversion IH as [|? ? IHp IHps]; subst. cbn in Hp. apply andb_prop in Hp as [Hp Hps]. cbn. apply upath_app; [apply IHp; tauto|apply IHl; tauto|].
    intros x y Hx Hy. apply psl_under in Hx; try tauto. apply under_app in Hx as (q & E). apply psls_under in Hy; try tauto. destruct Hy as (j & q' & Hj & E').
    rewrite E, E'. intros C. apply app_cons_inj in C as [C _]. lia.
  - destruct t as [| | | |us]; cbn in Hw; try tauto. repeat constructor; tauto.
  - destruct t as [| | | |us]; cbn in Hw; try tauto. cbn. destruct (nth_error us tag) as [[u|]|]; try tauto. apply (upath_app [_]); [repeat constructor; tauto|now apply IH|].
    intros x y [<-|[]] Hy. apply psl_under in Hy; try assumption. apply under_app in Hy as (q & E). rewrite E. cbn. intros C. apply app_cons_inj in C as [C _]. discriminate.
Qed.

(* values *)
Lemma guarded_app v a b : guarded v a -> (Forall (holds v) a -> guarded v b) -> guarded v (a ++ b).
Proof.
  intros Ha Hb pre s post E F I. revert pre E F. induction a as [|x a IH]; intros pre E F.
  - cbn in E. eapply Hb; eauto.
  - destruct pre as [|y pre]; cbn in E; injection E as <- E.
    + apply (Ha [] x a); auto.
    + inversion F as [|? ? Hx F']; subst.
      refine (IH _ _ pre E F').
      * intros p1 s1 q1 E1 F1 I1. apply (Ha (x :: p1) s1 q1); [now rewrite E1|now constructor|exact I1].
      * intros G. apply Hb. now constructor.
Qed.
Lemma guarded_nil v : guarded v [].
Proof. intros pre s post E. destruct pre; discriminate. Qed.
Lemma guarded_one v s : (iscons s = true -> exists k, loadv (sload s) v = Some (VLit k) /\ inr s k) -> guarded v [s].
Proof. intros H [|x pre] y post E F I; [injection E as <- _; now apply H|injection E as _ E; destruct pre; discriminate]. Qed.
Lemma zlist_eqb_iff a : forall b, zlist_eqb a b = true <-> a = b.
Proof.
  induction a as [|x a IH]; intros [|y b]; cbn; try (split; congruence). rewrite Bool.andb_true_iff, Z.eqb_eq, IH. split; [intros [-> ->]; reflexivity|intros H; injection H; auto].
Qed.
Lemma strslots_holds v l ws bs : loadv l v = Some (VStr ws) -> forall i pi, Forall (holds v) (strslots bs i l pi) <-> firstn (length bs) (skipn i ws) = bs.
Proof.
  intros L. induction bs as [|b bs IH]; intros i pi; cbn; [split; constructor|]. split.
  - intros H. inversion H as [|? ? H1 H2]; subst. rewrite IH in H2. unfold holds in H1. cbn in H1. rewrite L in H1. cbn in H1.
    destruct (nth_error ws i) as [c|] eqn:E; cbn in H1; [|discriminate]. injection H1 as ->.
    apply nth_error_split in E as (p & q & -> & <-). rewrite skipn_app, Nat.sub_diag, skipn_all2 by lia. cbn. f_equal.
    rewrite skipn_app, skipn_all2 in H2 by lia. replace (S (length p) - length p)%nat with 1%nat in H2 by lia. exact H2.
  - intros H. destruct (skipn i ws) as [|c cs] eqn:E; cbn in H; [discriminate|]. injection H as -> H.
    assert (Ec : nth_error ws i = Some b /\ skipn (S i) ws = cs).
    { clear -E. revert i E. induction ws as [|w ws IH]; intros i E; [rewrite skipn_nil in E; discriminate|]. destruct i; cbn in E; [injection E as -> ->; cbn; auto|]. now apply IH. }
    destruct Ec as [E1 E2]. constructor; [unfold holds; cbn; rewrite L; cbn; now rewrite E1|]. apply IH. now rewrite E2.
Qed.
Lemma strslots_guarded v l ws bs : loadv l v = Some (VStr ws) -> Forall isbyte ws -> forall i pi, (i + length bs <= length ws)%nat -> guarded v (strslots bs i l pi).
Proof.
  intros L B. induction bs as [|b bs IH]; intros i pi H; [apply guarded_nil|]. cbn in H. cbn. apply (guarded_app v [_]); [|intros _; apply IH; lia].
  apply guarded_one. intros _. cbn. rewrite L. destruct (nth_error ws i) as [c|] eqn:E.
  - exists c. split; [reflexivity|]. apply nth_error_In in E. rewrite Forall_forall in B. apply (B c) in E. exact E.
  - apply nth_error_None in E. lia.
Qed.

Lemma psl_sound p : forall t l pi v w, plain p = true -> wtp p t -> wtv w t -> loadv l v = Some w ->
  guarded v (psl p t l pi) /\ (Forall (holds v) (psl p t l pi) <-> pmatch p w = true).
Proof.
  induction p as [|x|k|bs|p IH|ps IH|tag|tag p IH|p IH|p q IH1 IH2] using pat_ind'; intros t l pi v w Hp Hw Hv L; try discriminate Hp.
  - split; [apply guarded_one; discriminate|]. split; [now intros|]. intros _. repeat constructor.
  - split; [apply guarded_one; discriminate|]. split; [now intros|]. intros _. repeat constructor.
  - destruct t; cbn in Hw; try tauto. destruct w; cbn in Hv; try tauto. cbn. split.
    + apply guarded_one. intros _. cbn. exists k0. split; [exact L|]. exact Hv.
    + split.
      * intros H. inversion H as [|? ? H1 _]; subst. unfold holds in H1. cbn in H1. rewrite L in H1. injection H1 as ->. apply Z.eqb_refl.
      * intros H. apply Z.eqb_eq in H. subst. repeat constructor. exact L.
  - destruct t; cbn in Hw; try tauto. destruct w as [|ws| | |]; cbn in Hv; try tauto. cbn [psl pmatch]. destruct Hv as [Bv Lv]. split.
    + apply (guarded_app v [_]).
      * apply guarded_one. intros _. cbn. rewrite L. eexists. split; [reflexivity|]. unfold inr. cbn. lia.
      * intros F. inversion F as [|? ? F1 _]; subst. unfold holds in F1. cbn in F1. rewrite L in F1. injection F1 as F1.
        apply strslots_guarded with (ws := ws); [exact L|exact Bv|]. lia.
    + rewrite zlist_eqb_iff. split.
      * intros F. inversion F as [|? ? F1 F2]; subst. unfold holds in F1. cbn in F1. rewrite L in F1. injection F1 as F1.
        rewrite (strslots_holds _ _ _ _ L) in F2. cbn in F2. rewrite firstn_all2 in F2 by lia. congruence.
      * intros ->. constructor; [unfold holds; cbn; now rewrite L|]. apply (strslots_holds _ _ _ _ L). cbn. apply firstn_all.
  - destruct t; cbn in Hw; try tauto. destruct w; cbn in Hv; try tauto. cbn. apply IH; auto. cbn. now rewrite L.
  - destruct t as [| | |ts|]; try (cbn in Hw; tauto). rewrite wtp_tup in Hw. destruct w as [| | |vs|]; try (cbn in Hv; tauto). rewrite wtv_tup in Hv.
    cbn [plain] in Hp. rewrite psl_tup, pmatch_tup.
    assert (G : forall ps' ts' vs' i, Forall (fun p => forall t l pi v w, plain p = true -> wtp p t -> wtv w t -> loadv l v = Some w ->
         guarded v (psl p t l pi) /\ (Forall (holds v) (psl p t l pi) <-> pmatch p w = true)) ps' -> forallb plain ps' = true -> wtps ps' ts' -> wtvs vs' ts' ->
         (forall j, nth_error vs' j = nth_error vs (i + j)) -> guarded v (psls ps' ts' l pi i) /\ (Forall (holds v) (psls ps' ts' l pi i) <-> pmatchs ps' vs' = true)).
    { clear -L. induction ps' as [|p ps IHl]; intros [|t ts] [|w ws] i IH Hp Hw Hv N; cbn in Hw, Hv; try tauto.
      - cbn. split; [apply guarded_nil|]. split; [reflexivity|constructor].
      - inversion IH as [|? ? IHp IHps]; subst. cbn in Hp. apply andb_prop in Hp as [Hp Hps]. cbn [psls pmatchs].
        destruct (IHp t (LElt l i) (pi ++ [i]) v w) as [G1 H1]; try tauto.
        { cbn. rewrite L. specialize (N O). rewrite Nat.add_0_r in N. cbn in N. now rewrite <- N. }
        destruct (IHl ts ws (S i)) as [G2 H2]; try tauto.
        { intros j. specialize (N (S j)). cbn in N. rewrite N. f_equal. lia. }
        split; [now apply guarded_app|]. rewrite Forall_app, Bool.andb_true_iff. tauto. }
    apply G; auto.
  - destruct t as [| | | |us]; cbn in Hw; try tauto. destruct w as [| | | |tg pl]; cbn in Hv; try tauto. cbn. split.
    + apply guarded_one. intros _. cbn. rewrite L. eexists. split; [reflexivity|]. unfold inr. cbn.
      assert (tg < length us)%nat by (apply nth_error_Some; intros C; rewrite C in Hv; exact Hv). lia.
    + destruct (nth_error us tag) as [[u|]|] eqn:E1; try tauto. split.
      * intros F. inversion F as [|? ? F1 _]; subst. unfold holds in F1. cbn in F1. rewrite L in F1. injection F1 as F1. assert (tg = tag) by lia. subst tg.
        rewrite E1 in Hv. destruct pl; [tauto|]. apply Nat.eqb_refl.
      * destruct pl; [discriminate|]. intros Q. apply Nat.eqb_eq in Q. subst. repeat constructor. unfold holds. cbn. now rewrite L.
  - destruct t as [| | | |us]; cbn in Hw; try tauto. destruct w as [| | | |tg pl]; cbn in Hv; try tauto. cbn.
    destruct (nth_error us tag) as [[u|]|] eqn:E1; try tauto.
    assert (HT : forall s, s = mkslot (pi ++ [O]) (Some (Z.of_nat tag)) (LTag l) (0, Z.of_nat (length us), Z.of_nat (length us)) -> guarded v [s] /\ (holds v s <-> tg = tag)).
    { intros s ->. split.
      - apply guarded_one. intros _. cbn. rewrite L. eexists. split; [reflexivity|]. unfold inr. cbn.
        assert (tg < length us)%nat by (apply nth_error_Some; intros C; rewrite C in Hv; exact Hv). lia.
      - unfold holds. cbn. rewrite L. split; [intros H; injection H; lia|now intros ->]. }
    destruct (HT _ eq_refl) as [G0 H0]. clear HT.
    assert (IH' : tg = tag -> exists w, pl = Some w /\ guarded v (psl p u (LData l) (pi ++ [1%nat])) /\ (Forall (holds v) (psl p u (LData l) (pi ++ [1%nat])) <-> pmatch p w = true)).
    { intros ->. rewrite E1 in Hv. destruct pl as [w|]; [|tauto]. exists w. split; [reflexivity|]. apply IH; auto. cbn. now rewrite L. }
    split.
    + apply (guarded_app v [_]); [exact G0|]. intros F. inversion F as [|? ? F1 _]; subst. destruct (IH' (proj1 H0 F1)) as (w & _ & G & _). exact G.
    + split.
      * intros F. inversion F as [|? ? F1 F2]; subst. apply H0 in F1. destruct (IH' F1) as (w & -> & _ & H). rewrite H in F2. subst tg. rewrite Nat.eqb_refl. exact F2.
      * destruct pl as [w|]; [|discriminate]. intros Q. apply andb_prop in Q as [Q1 Q2]. apply Nat.eqb_eq in Q1. subst tg. destruct (IH' eq_refl) as (w' & Ew & _ & H). injection Ew as <-.
        constructor; [now apply H0|now apply H].
Qed.

(* the captured variables *)
Lemma pcp_bind p : forall t l v w, plain p = true -> wtp p t -> wtv w t -> loadv l v = Some w -> pmatch p w = true ->
  map (fun c => (fst c, loadv (snd c) v)) (pcp p t l) = map (fun b => (fst b, Some (snd b))) (bind p w).
Proof.
  induction p as [|x|k|bs|p IH|ps IH|tag|tag p IH|p IH|p q IH1 IH2] using pat_ind'; intros t l v w Hp Hw Hv L M; try discriminate Hp.
  - destruct w, t; reflexivity.
  - cbn. rewrite L. now destruct w.
  - destruct t; cbn in Hw; try tauto; destruct w; cbn in Hv; try tauto; reflexivity.
  - destruct t; cbn in Hw; try tauto; destruct w; cbn in Hv; try tauto; reflexivity.
  - destruct t; cbn in Hw; try tauto. destruct w; cbn in Hv; try tauto. cbn. apply IH; auto. cbn. now rewrite L.
  - destruct t as [| | |ts|]; try (cbn in Hw; tauto). rewrite wtp_tup in Hw. destruct w as [| | |vs|]; try (cbn in Hv; tauto). rewrite wtv_tup in Hv.
    cbn [plain] in Hp. rewrite pcp_tup, bind_tup. rewrite pmatch_tup in M.
    assert (G : forall ps' ts' vs' i, Forall (fun p => forall t l v w, plain p = true -> wtp p t -> wtv w t -> loadv l v = Some w -> pmatch p w = true ->
         map (fun c => (fst c, loadv (snd c) v)) (pcp p t l) = map (fun b => (fst b, Some (snd b))) (bind p w)) ps' -> forallb plain ps' = true -> wtps ps' ts' -> wtvs vs' ts' -> pmatchs ps' vs' = true ->
         (forall j, nth_error vs' j = nth_error vs (i + j)) -> map (fun c => (fst c, loadv (snd c) v)) (pcps ps' ts' l i) = map (fun b => (fst b, Some (snd b))) (binds ps' vs')).
    { clear -L. induction ps' as [|p ps IHl]; intros [|t ts] [|w ws] i IH Hp Hw Hv M N; cbn in Hw, Hv; try tauto.
      inversion IH as [|? ? IHp IHps]; subst. cbn in Hp. apply andb_prop in Hp as [Hp Hps]. cbn in M. apply andb_prop in M as [M1 M2]. cbn [pcps binds]. rewrite !map_app. f_equal.
      - apply IHp; try tauto. cbn. rewrite L. specialize (N O). rewrite Nat.add_0_r in N. cbn in N. now rewrite <- N.
      - apply IHl; try tauto. intros j. specialize (N (S j)). cbn in N. rewrite N. f_equal. lia. }
    apply G; auto.
  - destruct t as [| | | |us]; cbn in Hw; try tauto; destruct w as [| | | |tg pl]; cbn in Hv; try tauto; reflexivity.
  - destruct t as [| | | |us]; cbn in Hw; try tauto. destruct w as [| | | |tg pl]; cbn in Hv; try tauto. cbn in M. destruct pl as [w|]; [|discriminate].
    apply andb_prop in M as [M1 M2]. apply Nat.eqb_eq in M1. subst tg. cbn. destruct (nth_error us tag) as [[u|]|] eqn:E1; try tauto. apply IH; auto. cbn. now rewrite L.
Qed.

(* two rows *)
Lemma consistent_app_l a b R : consistent a R -> (forall pre s1 post s2, b = pre ++ s1 :: post -> In s2 R -> spath s1 = spath s2 -> iscons s1 = true -> iscons s2 = true ->
   (sload s1 = sload s2 /\ styp s1 = styp s2) \/ exists u1 u2, In u1 (a ++ pre) /\ In u2 R /\ clash u1 u2) -> consistent (a ++ b) R.
Proof.
  intros Ha Hb pre s1 post s2 E I Hp I1 I2. revert Ha Hb pre E. induction a as [|x a IH]; intros Ha Hb pre E.
  - cbn in E. eapply Hb; eauto.
  - assert (K : (exists q, x :: a = pre ++ s1 :: q) \/ exists q, pre = (x :: a) ++ q /\ b = q ++ s1 :: post).
    { clear -E. revert E. generalize (x :: a). intros a0. revert pre. induction a0 as [|y a0 IH]; intros pre E; [right; now exists pre|].
      destruct pre as [|z pre]; cbn in E; injection E as <- E; [left; now exists a0|]. destruct (IH pre E) as [(q & Hq)|(q & -> & Hq)]; [left; exists q; now rewrite Hq|right; now exists q]. }
    destruct K as [(q & K)|(q & -> & K)]; [eapply Ha; eauto|eapply Hb; eauto].
Qed.
Lemma consistent_one s R : (forall s2, In s2 R -> spath s = spath s2 -> iscons s = true -> iscons s2 = true -> sload s = sload s2 /\ styp s = styp s2) -> consistent [s] R.
Proof. intros H [|x pre] y post s2 E I Hp I1 I2; [injection E as <- _; left; now apply H|injection E as _ E; destruct pre; discriminate]. Qed.
Lemma consistent_nil R : consistent [] R.
Proof. intros pre s post s2 E. destruct pre; discriminate. Qed.
Lemma consistent_sub a R R' : consistent a R -> incl R R' -> (forall s1 s2, In s1 a -> In s2 R' -> spath s1 = spath s2 -> iscons s1 = true -> iscons s2 = true -> In s2 R) -> consistent a R'.
Proof.
  intros H HI HS pre s1 post s2 E I Hp I1 I2.
  assert (I' : In s2 R) by (apply (HS s1); auto; rewrite E; apply in_or_app; right; now left).
  destruct (H pre s1 post s2 E I' Hp I1 I2) as [?|(u1 & u2 & A & B & C)]; [now left|right; exists u1, u2; auto].
Qed.
Lemma consistent_wild R s : iscons s = false -> consistent R [s].
Proof. intros H pre s1 post s2 E [<-|[]] Hp I1 I2. congruence. Qed.
Lemma psl_consistent p : forall q t l pi, plain p = true -> plain q = true -> wtp p t -> wtp q t -> consistent (psl p t l pi) (psl q t l pi).
Proof.
  induction p as [|x|k|bs|p IH|ps IH|tag|tag p IH|p IH|p q IH1 IH2] using pat_ind'; intros q0 t l pi Hp Hq Hw Hw'; try discriminate Hp.
  - apply consistent_one. discriminate.
  - apply consistent_one. discriminate.
  - destruct t; cbn in Hw; try tauto. destruct q0; cbn in Hw'; try tauto; try discriminate Hq; apply consistent_one; intros s2 [<-|[]] _ _ I2; try discriminate I2; now split.
  - destruct t; cbn in Hw; try tauto. destruct q0 as [| | |bs'| | | | |]; cbn in Hw'; try tauto; try discriminate Hq; try (apply consistent_wild; reflexivity).
    intros pre s1 post s2 E I Hp' I1 I2. left. assert (I1' : In s1 (psl (PStr bs) TStr l pi)) by (rewrite E; apply in_or_app; right; now left).
    cbn in I1', I. destruct I1' as [<-|I1']; destruct I as [<-|I]; cbn in *.
    + now split.
    + apply strslots_in in I as (j & c & _ & _ & ->). cbn in Hp'. apply app_cons_inj in Hp' as [C _]. discriminate.
    + apply strslots_in in I1' as (j & c & _ & _ & ->). cbn in Hp'. apply app_cons_inj in Hp' as [C _]. discriminate.
    + apply strslots_in in I as (j & c & _ & _ & ->). apply strslots_in in I1' as (j' & c' & _ & _ & ->). cbn in Hp'. apply app_cons_inj in Hp' as [C _]. injection C as ->. now split.
  - destruct t; cbn in Hw; try tauto. destruct q0; cbn in Hw'; try tauto; try discriminate Hq; try (apply consistent_wild; reflexivity). cbn. apply IH; auto.
  - destruct t as [| | |ts|]; try (cbn in Hw; tauto). rewrite wtp_tup in Hw. destruct q0 as [| | | | |qs| | |]; try (cbn in Hw'; tauto); try discriminate Hq; try (apply consistent_wild; reflexivity).
    rewrite wtp_tup in Hw'. cbn [plain] in Hp, Hq. rewrite !psl_tup.
    revert ts qs Hq Hw Hw'. generalize O. induction ps as [|p ps IHl]; intros i [|t ts] [|q qs] Hq Hw Hw'; cbn in Hw, Hw'; try tauto; [apply consistent_nil|].
    inversion IH as [|? ? IHp IHps]; subst. cbn in Hp, Hq. apply andb_prop in Hp as [Hp Hps]. apply andb_prop in Hq as [Hq Hqs]. cbn [psls].
    apply consistent_app_l.
    + apply consistent_sub with (psl q t (LElt l i) (pi ++ [i])); [apply IHp; tauto|intros x Hx; apply in_or_app; now left|].
      intros s1 s2 H1 H2 E _ _. apply in_app_or in H2 as [H2|H2]; [exact H2|exfalso]. apply psl_under in H1; try tauto. apply under_app in H1 as (q1 & E1).
      apply psls_under in H2; try tauto. destruct H2 as (j & q2 & Hj & E2). rewrite E1, E2 in E. apply app_cons_inj in E as [C _]. lia.
    + intros pre s1 post s2 E H2 Hpp I1 I2. apply in_app_or in H2 as [H2|H2].
      * exfalso. apply psl_under in H2; try tauto. apply under_app in H2 as (q2 & E2). assert (H1 : In s1 (psls ps ts l pi (S i))) by (rewrite E; apply in_or_app; right; now left).
        apply psls_under in H1; try tauto. destruct H1 as (j & q1 & Hj & E1). rewrite E1, E2 in Hpp. apply app_cons_inj in Hpp as [C _]. lia.
      * destruct (IHl IHps Hps (S i) ts qs Hqs ltac:(tauto) ltac:(tauto) pre s1 post s2 E H2 Hpp I1 I2) as [?|(u1 & u2 & A & B & C)]; [now left|right].
        exists u1, u2. repeat split; [apply in_or_app; now right|apply in_or_app; now right|exact C].
  - destruct t as [| | | |us]; cbn in Hw; try tauto. cbn. apply consistent_one.
    destruct q0; try (cbn in Hw'; tauto); try discriminate Hq; try (intros s2 [<-|[]] _ _ I2; discriminate I2). cbn.
    intros s2 [<-|H2] E _ I2; [now split|exfalso]. destruct pl as [q|]; [|tauto]. cbn in Hw', Hq. destruct (nth_error us tag0) as [[u'|]|]; try tauto.
    apply psl_under in H2; try assumption. apply under_app in H2 as (q2 & E2). rewrite E2 in E. cbn in E. apply app_cons_inj in E as [C _]. discriminate.
  - destruct t as [| | | |us]; cbn in Hw; try tauto. destruct q0 as [| | | | | |tag' pl| |]; try (cbn in Hw'; tauto); try discriminate Hq; try (apply consistent_wild; reflexivity).
    cbn in Hw'. cbn [psl]. destruct (nth_error us tag) as [[u|]|] eqn:E1; try tauto. set (n := Z.of_nat (length us)) in *. clearbody n.
    assert (HT : forall s2, In s2 (match pl with Some p0 => match nth_error us tag' with Some (Some u) => psl p0 u (LData l) (pi ++ [1%nat]) | _ => [] end | None => [] end) -> exists q, spath s2 = pi ++ 1%nat :: q).
    { intros s2 H2. destruct pl as [q|]; [|destruct H2]. cbn in Hq. destruct (nth_error us tag') as [[u'|]|]; try tauto. apply psl_under in H2; try assumption. now apply under_app in H2. }
    apply (consistent_app_l [_]).
    + apply consistent_one. intros s2 [<-|H2] E _ _; [now split|exfalso]. destruct (HT s2 H2) as (q2 & E2). rewrite E2 in E. cbn in E. apply app_cons_inj in E as [C _]. discriminate.
    + intros pre s1 post s2 E H2 Hpp I1 I2.
      assert (H1 : exists q, spath s1 = pi ++ 1%nat :: q).
      { assert (H1 : In s1 (psl p u (LData l) (pi ++ [1%nat]))) by (rewrite E; apply in_or_app; right; now left). apply psl_under in H1; try assumption. now apply under_app in H1. }
      destruct H1 as (q1 & Eq1). destruct H2 as [<-|H2]; [rewrite Eq1 in Hpp; cbn in Hpp; apply app_cons_inj in Hpp as [C _]; discriminate|].
      destruct (Nat.eq_dec tag tag') as [<-|NE].
      * rewrite E1 in H2, Hw'. destruct pl as [q|]; [|destruct H2]. cbn in Hq.
        destruct (IH q u (LData l) (pi ++ [1%nat]) Hp Hq Hw Hw' pre s1 post s2 E H2 Hpp I1 I2) as [?|(u1 & u2 & A & B & C)]; [now left|right].
        exists u1, u2. repeat split; [now right|right; rewrite E1; exact B|exact C].
      * right. eexists _, _. split; [now left|]. split; [now left|]. eexists _, _. repeat split. lia.
Qed.
(* what a literal slot may say, and where it is *)
Lemma psl_inr p : forall t l pi s k, plain p = true -> wtp p t -> In s (psl p t l pi) -> spat s = Some k -> inr s k.
Proof.
  induction p as [|x|k|bs|p IH|ps IH|tag|tag p IH|p IH|p q IH1 IH2] using pat_ind'; intros t l pi s j Hp Hw H E; try discriminate Hp.
  - destruct H as [<-|[]]. discriminate.
  - destruct H as [<-|[]]. discriminate.
  - destruct t; cbn in Hw; try tauto. destruct H as [<-|[]]. injection E as <-. exact Hw.
  - destruct t; cbn in Hw; try tauto. destruct Hw as [Hb Hl]. cbn in H. destruct H as [<-|H]; [injection E as <-; unfold inr; cbn; lia|].
    apply strslots_in in H as (i & b & _ & Hn & ->). cbn in E. injection E as <-. apply nth_error_In in Hn. rewrite Forall_forall in Hb. exact (Hb b Hn).
  - destruct t; cbn in Hw; try tauto. cbn in H. eapply IH; eauto.
  - destruct t as [| | |ts|]; try (cbn in Hw; tauto). rewrite wtp_tup in Hw. cbn [plain] in Hp. rewrite psl_tup in H.
    revert ts Hw H. generalize O. induction ps as [|p ps IHl]; intros i [|t ts] Hw H; cbn in Hw; try tauto; [destruct H|].
    inversion IH as [|? ? IHp IHps]; subst. cbn in Hp. apply andb_prop in Hp as [Hp Hps]. cbn in H. apply in_app_or in H as [H|H].
    + eapply IHp; try exact H; tauto.
    + eapply (IHl IHps Hps (S i) ts (proj2 Hw) H).
  - destruct t as [| | | |us]; cbn in Hw; try tauto. cbn in H. destruct H as [<-|[]]. injection E as <-. unfold inr. cbn.
    assert (tag < length us)%nat by (apply nth_error_Some; intros C; rewrite C in Hw; exact Hw). lia.
  - destruct t as [| | | |us]; cbn in Hw; try tauto. cbn in H. destruct (nth_error us tag) as [[u|]|] eqn:E1; try tauto. destruct H as [<-|H]; [|eapply IH; eauto].
    injection E as <-. unfold inr. cbn. assert (tag < length us)%nat by (apply nth_error_Some; congruence). lia.
Qed.
