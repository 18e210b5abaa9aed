(* Whole match statements: what gendtree accepts, what the tree does, and termination for all patterns. *)
From Coq Require Import Lia ZifyBool ZifyNat.
From Verif Require Import Base Match_Spec Match_Model Match_Proofs Match_Rows.
Open Scope Z_scope.

(* ---- termination, for every pattern ---- *)
Definition grown (pi : path) (f g : frow) : Prop := exists x, slots g = slots f ++ x /\ upath x /\ forall s, In s x -> under pi s.
Lemma grown_refl pi f : grown pi f f.
Proof. exists []. rewrite app_nil_r. repeat split; [constructor|intros s []]. Qed.
Lemma grown_one pi f k l y : grown pi f (addslot (mkslot pi k l y) f).
Proof. eexists. split; [reflexivity|]. split; [repeat constructor; tauto|]. intros s [<-|[]]. exists []. cbn. now rewrite app_nil_r. Qed.
Lemma grown_sub pi i f g : grown (pi ++ [i]) f g -> grown pi f g.
Proof. intros (x & E & U & H). exists x. repeat split; auto. intros s Hs. apply H in Hs. apply under_app in Hs as (q & Q). now exists (i :: q). Qed.
Lemma addrec_grown p : forall t l pi f f1 e, addrec p t l pi f = (f1, e) -> forall g, In g (f1 :: e) -> grown pi f g.
Proof.
  induction p as [|x|k|bs|p IH|ps IH|tag|tag p IH|p IH|p q IH1 IH2] using pat_ind'; intros t l pi f f1 e E g Hg.
  - cbn in E. injection E as <- <-. destruct Hg as [<-|[]]. apply grown_one.
  - cbn in E. injection E as <- <-. destruct Hg as [<-|[]]. apply (grown_one pi (addcap (x, l) f)).
  - destruct t; cbn in E; injection E as <- <-; destruct Hg as [<-|[]]; try apply grown_refl. apply grown_one.
  - cbn in E. injection E as <- <-. destruct Hg as [<-|[]]. eexists. split; [reflexivity|]. split.
    + apply (upath_app [_]); [repeat constructor; tauto|apply strslots_upath|].
      intros x y [<-|[]] Hy. apply strslots_in in Hy as (j & c & Hj & _ & ->). cbn. intros C. apply app_cons_inj in C as [C _]. discriminate.
    + intros s [<-|H]; [now exists [O]|]. apply strslots_in in H as (j & b & _ & _ & ->). now exists [S j].
  - destruct t; cbn in E; try (injection E as <- <-; destruct Hg as [<-|[]]; apply grown_refl). eapply grown_sub. eapply IH; eauto.
  - destruct t as [| | |ts|]; cbn [addrec] in E; try (injection E as <- <-; destruct Hg as [<-|[]]; apply grown_refl).
    assert (G : forall ps', Forall (fun p => forall t l pi f f1 e, addrec p t l pi f = (f1, e) -> forall g, In g (f1 :: e) -> grown pi f g) ps' -> forall ts i f f1 e,
      (fix go ps ts i f := match ps, ts with
        | p :: ps, t :: ts => let '(f1, e1) := addrec p t (LElt l i) (pi ++ [i]) f in let '(f2, e2) := go ps ts (S i) f1 in (f2, e2 ++ e1)
        | _, _ => (f, []) end) ps' ts i f = (f1, e) -> forall g, In g (f1 :: e) ->
      exists x, slots g = slots f ++ x /\ upath x /\ forall s, In s x -> exists j q, (i <= j)%nat /\ spath s = pi ++ j :: q).
    { clear. induction ps' as [|p ps IHl]; intros HF [|t ts] i f f1 e E g Hg; try (injection E as <- <-; destruct Hg as [<-|[]]; exists []; rewrite app_nil_r; repeat split; [constructor|intros s []]).
      inversion HF as [|? ? HP HPs]; subst. destruct (addrec p t (LElt l i) (pi ++ [i]) f) as [f2 e2] eqn:E2.
      destruct ((fix go ps ts i f := match ps, ts with
        | p :: ps, t :: ts => let '(f1, e1) := addrec p t (LElt l i) (pi ++ [i]) f in let '(f2, e2) := go ps ts (S i) f1 in (f2, e2 ++ e1)
        | _, _ => (f, []) end) ps ts (S i) f2) as [f3 e3] eqn:E3. injection E as <- <-.
      assert (H2 : forall g, In g (f2 :: e2) -> exists x, slots g = slots f ++ x /\ upath x /\ forall s, In s x -> exists q, spath s = pi ++ i :: q).
      { intros g' Hg'. destruct (HP _ _ _ _ _ _ E2 g' Hg') as (x & A & B & C). exists x. repeat split; auto. intros s Hs. now apply under_app, C. }
      assert (H3 : In g (f3 :: e3) \/ In g e2) by (destruct Hg as [Hg|Hg]; [left; now left|apply in_app_or in Hg as [Hg|Hg]; [left; now right|now right]]).
      destruct H3 as [H3|H3].
      - destruct (IHl HPs ts (S i) f2 f3 e3 E3 g H3) as (y & A & B & C). destruct (H2 f2 (or_introl eq_refl)) as (x & A' & B' & C').
        exists (x ++ y). rewrite A, A', app_assoc. repeat split.
        + apply upath_app; auto. intros a b Ha Hb. destruct (C' a Ha) as (q & Q). destruct (C b Hb) as (j & q' & Hj & Q'). rewrite Q, Q'. intros D. apply app_cons_inj in D as [D _]. lia.
        + intros s Hs. apply in_app_or in Hs as [Hs|Hs]; [destruct (C' s Hs) as (q & Q); exists i, q; split; [lia|exact Q]|]. destruct (C s Hs) as (j & q & Hj & Q). exists j, q. split; [lia|exact Q].
      - destruct (H2 g (or_intror H3)) as (x & A & B & C). exists x. repeat split; auto. intros s Hs. destruct (C s Hs) as (q & Q). exists i, q. split; [lia|exact Q]. }
    destruct (G ps IH ts O f f1 e E g Hg) as (x & A & B & C). exists x. repeat split; auto. intros s Hs. destruct (C s Hs) as (j & q & _ & Q). now exists (j :: q).
  - destruct t; cbn in E; injection E as <- <-; destruct Hg as [<-|[]]; try apply grown_refl. eapply grown_sub. apply grown_one.
  - destruct t as [| | | |us]; cbn in E; try (injection E as <- <-; destruct Hg as [<-|[]]; apply grown_refl).
    assert (H1 : grown (pi ++ [O]) f (addslot (mkslot (pi ++ [O]) (Some (Z.of_nat tag)) (LTag l) (0, Z.of_nat (length us), Z.of_nat (length us))) f)) by apply grown_one.
    destruct (nth_error us tag) as [[u|]|]; try (injection E as <- <-; destruct Hg as [<-|[]]; eapply grown_sub; exact H1).
    destruct H1 as (x & A & B & C). destruct (IH _ _ _ _ _ _ E g Hg) as (y & A' & B' & C'). exists (x ++ y). rewrite A', A, app_assoc. repeat split.
    + apply upath_app; auto. intros a b Ha Hb. apply C, under_app in Ha as (q & Q). apply C', under_app in Hb as (q' & Q'). rewrite Q, Q'. intros D. apply app_cons_inj in D as [D _]. discriminate.
    + intros s Hs. apply in_app_or in Hs as [Hs|Hs]; [apply C, under_app in Hs as (q & Q); now exists (O :: q)|apply C', under_app in Hs as (q & Q); now exists (1%nat :: q)].
  - destruct t; cbn [addrec] in E; eapply grown_sub; eapply IH; eauto.
  - assert (E' : (let '(f2, e2) := addrec p t l pi (mkfrow (slots f) (caps f) true) in let '(f3, e3) := addrec q t l pi (mkfrow (slots f) (caps f) true) in (f2, e2 ++ f3 :: e3)) = (f1, e)) by (destruct t; exact E).
    destruct (addrec p t l pi _) as [f2 e2] eqn:E2. destruct (addrec q t l pi _) as [f3 e3] eqn:E3. injection E' as <- <-.
    assert (H : In g (f2 :: e2) \/ In g (f3 :: e3)) by (destruct Hg as [Hg|Hg]; [left; now left|apply in_app_or in Hg as [Hg|Hg]; [left; now right|now right]]).
    destruct H as [H|H]; [exact (IH1 _ _ _ _ _ _ E2 g H)|exact (IH2 _ _ _ _ _ _ E3 g H)].
Qed.
Lemma genfrontier_upath p t f : In f (genfrontier p t) -> upath (slots f).
Proof.
  unfold genfrontier. destruct (addrec p t LVar [O] (mkfrow [] [] false)) as [f1 e] eqn:E. intros H. destruct (addrec_grown _ _ _ _ _ _ _ E f H) as (x & -> & U & _). exact U.
Qed.
Lemma allrows_upath ps t x : In x (allrows ps t) -> upath (slots (snd x)).
Proof.
  unfold allrows. rewrite in_flat_map. intros ((i & p) & _ & H). apply in_map_iff in H as (f & <- & H). cbn. eapply genfrontier_upath; eauto.
Qed.
Lemma number_in {A} (l : list A) : forall i x, In x (number i l) <-> (i <= fst x)%nat /\ nth_error l (fst x - i) = Some (snd x).
Proof.
  induction l as [|a l IH]; intros i [k x]; cbn [number fst snd].
  - split; [intros []|intros [_ H]; destruct (k - i)%nat; discriminate].
  - cbn [In]. rewrite IH. cbn [fst snd]. split.
    + intros [H|[H1 H2]]; [injection H as <- <-; rewrite Nat.sub_diag; split; [lia|reflexivity]|]. replace (k - i)%nat with (S (k - S i)) by lia. split; [lia|exact H2].
    + intros [H1 H2]. destruct (Nat.eq_dec i k) as [<-|N]; [left; rewrite Nat.sub_diag in H2; cbn in H2; congruence|right]. replace (k - i)%nat with (S (k - S i)) in H2 by lia. split; [lia|exact H2].
Qed.
Lemma number_len {A} (l : list A) i : length (number i l) = length l.
Proof. revert i. induction l as [|x l IH]; intros i; cbn; auto. Qed.
Definition rows_of (fr : list (nat * frow)) : list row := map (fun x => mkrow (fst x) (slots (snd (snd x)))) (number O fr).
Lemma rows_up ps t : allupath (rows_of (allrows ps t)).
Proof.
  unfold allupath, rows_of. rewrite Forall_forall. intros r H. apply in_map_iff in H as ([k x] & <- & H). cbn. apply number_in in H as [_ H]. cbn in H. apply nth_error_In in H. eapply allrows_upath; eauto.
Qed.
Lemma allrows_ne ps t : ps <> [] -> allrows ps t <> [].
Proof.
  destruct ps as [|p ps]; [congruence|]. intros _. unfold allrows. cbn. destruct (genfrontier p t) eqn:E; [|discriminate].
  unfold genfrontier in E. destruct (addrec _ _ _ _ _). discriminate.
Qed.
Lemma rows_ne fr : fr <> [] -> rows_of fr <> [].
Proof. destruct fr; [congruence|discriminate]. Qed.
Theorem gendtree_terminates ps t : ps <> [] -> gendtree ps t <> NoFuel.
Proof.
  intros H C. unfold gendtree in C. fold (rows_of (allrows ps t)) in C. destruct (negb (caps_ok _)); [discriminate|].
  pose proof (compile_fuel (S (nslots (rows_of (allrows ps t)))) (rows_of (allrows ps t)) (mkst (map (fun _ => NAcc) (allrows ps t)) []) (rows_ne _ (allrows_ne ps t H)) (rows_up ps t) (Nat.lt_succ_diag_r _)) as F.
  destruct (compile _ (rows_of (allrows ps t)) _) as [[d s]| | | | |]; try (inversion F; fail); [|discriminate]. destruct (find _ _); [discriminate|]. destruct (verifymatch _ _ _); discriminate.
Qed.

(* ---- plain alternatives: the rows of a match ---- *)
Definition altlist (i : nat) (ps : list pat) : list (nat * pat * bool) := flat_map (fun ip => map (fun q => (fst ip, q, isor (snd ip))) (alts (snd ip))) (number i ps).
Definition altrow (t : ty) (x : nat * pat * bool) : nat * frow := (fst (fst x), mkfrow (psl (snd (fst x)) t LVar [O]) (pcp (snd (fst x)) t LVar) (snd x)).
Lemma allrows_alts ps t : okpats ps t -> allrows ps t = map (altrow t) (altlist 0 ps).
Proof.
  unfold allrows, altlist. generalize O. induction ps as [|p ps IH]; intros i H; [reflexivity|]. inversion H as [|? ? [H1 H2] H3]; subst. cbn [number flat_map fst snd].
  rewrite map_app, <- IH by assumption. f_equal. unfold genfrontier. pose proof (addrec_alts p t LVar [O] (mkfrow [] [] false) H1 H2) as E. cbn [slots caps hasor orb app] in E.
  rewrite E, !map_map. reflexivity.
Qed.
Lemma wtp_alts p t : wtp p t <-> Forall (fun q => wtp q t) (alts p).
Proof.
  induction p as [|x|k|bs|p IH|ps IH|tag|tag p IH|p IH|p q IH1 IH2] using pat_ind'; try (cbn [alts]; split; [intros; constructor; [assumption|constructor]|intros H; now inversion H]).
  cbn [alts]. rewrite Forall_app, <- IH1, <- IH2. destruct t; reflexivity.
Qed.
Lemma altlist_ok ps t i x : okpats ps t -> In x (altlist i ps) -> plain (snd (fst x)) = true /\ wtp (snd (fst x)) t.
Proof.
  unfold altlist, okpats. rewrite in_flat_map, Forall_forall. intros H ((k & p) & H1 & H2). apply in_map_iff in H2 as (q & <- & H2). cbn in *.
  apply number_in in H1 as [_ H1]. cbn in H1. apply nth_error_In in H1. destruct (H p H1) as [A B]. unfold topor in A. rewrite forallb_forall in A. rewrite wtp_alts, Forall_forall in B. auto.
Qed.
Lemma pmatch_alts p v : pmatch p v = existsb (fun q => pmatch q v) (alts p).
Proof.
  induction p as [|x|k|bs|p IH|ps IH|tag|tag p IH|p IH|p q IH1 IH2] using pat_ind'; try (cbn [alts existsb]; now rewrite Bool.orb_false_r).
  cbn [alts]. rewrite existsb_app, <- IH1, <- IH2. destruct v; reflexivity.
Qed.
Lemma find_app {A} (f : A -> bool) a b : find f (a ++ b) = match find f a with Some x => Some x | None => find f b end.
Proof. induction a as [|x a IH]; cbn; [reflexivity|]. destruct (f x); [reflexivity|exact IH]. Qed.
Lemma find_map {A B} (g : A -> B) f l : find f (map g l) = option_map g (find (fun x => f (g x)) l).
Proof. induction l as [|x l IH]; cbn; [reflexivity|]. destruct (f (g x)); [reflexivity|exact IH]. Qed.
Lemma find_ext_in {A} (f g : A -> bool) l : (forall x, In x l -> f x = g x) -> find f l = find g l.
Proof. induction l as [|x l IH]; cbn; intros H; [reflexivity|]. rewrite (H x (or_introl eq_refl)). destruct (g x); [reflexivity|]. apply IH. auto. Qed.
Lemma find_existsb {A} (f : A -> bool) l : existsb f l = match find f l with Some _ => true | None => false end.
Proof. induction l as [|x l IH]; cbn; [reflexivity|]. destruct (f x); [reflexivity|exact IH]. Qed.
Lemma find_number {A} (f : A -> bool) l : forall i, match find (fun x => f (snd x)) (number i l) with
  | Some (k, x) => (i <= k)%nat /\ nth_error l (k - i) = Some x /\ find f l = Some x | None => find f l = None end.
Proof.
  induction l as [|a l IH]; intros i; cbn; [reflexivity|]. destruct (f a) eqn:E; [rewrite Nat.sub_diag; repeat split; lia|].
  specialize (IH (S i)). destruct (find _ (number (S i) l)) as [[k x]|]; [|exact IH]. destruct IH as (A1 & A2 & A3). replace (k - i)%nat with (S (k - S i)) by lia. repeat split; [lia|exact A2|exact A3].
Qed.
Lemma bind_alts p v : bind p v = match find (fun q => pmatch q v) (alts p) with Some q => bind q v | None => bind p v end.
Proof.
  induction p as [|x|k|bs|p IH|ps IH|tag|tag p IH|p IH|p q IH1 IH2] using pat_ind'; try (cbn [alts find]; match goal with |- context [pmatch ?a ?b] => destruct (pmatch a b); reflexivity end).
  cbn [alts]. rewrite find_app. assert (E : bind (POr p q) v = if pmatch p v then bind p v else bind q v) by (destruct v; reflexivity). rewrite E; clear E.
  rewrite (pmatch_alts p), find_existsb. destruct (find _ (alts p)); [exact IH1|]. destruct (find _ (alts q)); [exact IH2|reflexivity].
Qed.
(* the first alternative that matches belongs to the first arm that matches *)
Lemma first_alt ps v : forall i, match find (fun x => pmatch (snd (fst x)) v) (altlist i ps) with
  | Some x => exists k p, first_arm ps v = Some k /\ fst (fst x) = (i + k)%nat /\ nth_error ps k = Some p /\ bind (snd (fst x)) v = bind p v /\ pmatch (snd (fst x)) v = true
  | None => first_arm ps v = None end.
Proof.
  induction ps as [|p ps IH]; intros i; [reflexivity|]. unfold altlist. cbn [number flat_map fst snd first_arm]. rewrite find_app, find_map. cbn [fst snd].
  rewrite pmatch_alts, find_existsb. pose proof (bind_alts p v) as B. destruct (find (fun x => pmatch x v) (alts p)) as [q|] eqn:E.
  - cbn. exists O, p. apply find_some in E as [_ E]. repeat split; auto; lia.
  - cbn [option_map]. specialize (IH (S i)). unfold altlist in IH. destruct (find _ (flat_map _ (number (S i) ps))) as [x|].
    + destruct IH as (k & p' & A1 & A2 & A3 & A4 & A5). exists (S k), p'. rewrite A1. repeat split; auto; lia.
    + now rewrite IH.
Qed.

Section Plain.
Variables (ps : list pat) (t : ty).
Hypothesis H : okpats ps t.
Let L := altlist 0 ps.
Let fr := allrows ps t.
Let origs := map (fun x => slots (snd x)) fr.
Lemma fr_eq : fr = map (altrow t) L. Proof. now apply allrows_alts. Qed.
Lemma orig_in R : In R origs -> exists q, plain q = true /\ wtp q t /\ R = psl q t LVar [O].
Proof.
  unfold origs. rewrite fr_eq, map_map, in_map_iff. intros (x & <- & Hx). exists (snd (fst x)). destruct (altlist_ok _ _ _ _ H Hx). now repeat split.
Qed.
Lemma origs_up R : In R origs -> upath R.
Proof. intros HR. apply orig_in in HR as (q & A & B & ->). now apply psl_upath. Qed.
Lemma origs_cons R1 R2 : In R1 origs -> In R2 origs -> consistent R1 R2.
Proof. intros H1 H2. apply orig_in in H1 as (q & A & B & ->). apply orig_in in H2 as (q' & A' & B' & ->). now apply psl_consistent. Qed.
Lemma origs_vok v : wtv v t -> vok origs v.
Proof. intros Hv R HR. apply orig_in in HR as (q & A & B & ->). now apply (psl_sound q t LVar [O] v v). Qed.
Lemma rows_inv : Forall (Inv origs []) (rows_of fr).
Proof.
  rewrite Forall_forall. intros r Hr. apply in_map_iff in Hr as ([k x] & <- & Hx). apply number_in in Hx as [_ Hx]. cbn in Hx. rewrite Nat.sub_0_r in Hx.
  exists (slots (snd x)). cbn. unfold origs. rewrite nth_error_map, Hx. repeat split.
  - symmetry. induction (slots (snd x)) as [|a l IH]; cbn; [reflexivity|now rewrite IH].
  - intros s a k' _ _ [].
Qed.
Lemma rows_accs : accs (rows_of fr) (mkst (map (fun _ => NAcc) fr) []).
Proof.
  intros r Hr. apply in_map_iff in Hr as ([k x] & <- & Hx). apply number_in in Hx as [_ Hx]. cbn in *. rewrite Nat.sub_0_r in Hx. now rewrite nth_error_map, Hx.
Qed.
Lemma start_wf : wf (map (fun _ : nat * frow => NAcc) fr).
Proof. intros i d E. rewrite nth_error_map in E. destruct (nth_error fr i); [|discriminate]. injection E as <-. exact Logic.I. Qed.
Lemma compile_rows fuel d s : compile fuel (rows_of fr) (mkst (map (fun _ => NAcc) fr) []) = Ok (d, s) ->
  wf (nodes s) /\ good origs s d (rows_of fr) [].
Proof.
  intros E. destruct (compile_ok origs origs_up origs_cons fuel _ _ _ _ [] E start_wf rows_accs rows_inv) as (_ & A & B). now split.
Qed.
Lemma rows_invv v : Forall (InvV origs v []) (rows_of fr).
Proof. rewrite Forall_forall. intros r _ R s _ _ C. discriminate. Qed.
(* the row found, in terms of patterns *)
Lemma rows_first v : wtv v t -> match find (fun r => rowb v (rslots r)) (rows_of fr) with
  | Some r => exists x, nth_error L (final r) = Some x /\ find (fun x => pmatch (snd (fst x)) v) L = Some x
  | None => find (fun x => pmatch (snd (fst x)) v) L = None end.
Proof.
  intros Hv. unfold rows_of. rewrite find_map. cbn [rslots].
  assert (E : forall x, In x L -> rowb v (slots (snd (altrow t x))) = pmatch (snd (fst x)) v).
  { intros x Hx. destruct (altlist_ok _ _ _ _ H Hx) as [A B]. cbn. destruct (psl_sound _ t LVar [O] v v A B Hv eq_refl) as [_ S].
    apply Bool.eq_true_iff_eq. rewrite <- S. unfold rowb. rewrite forallb_forall, Forall_forall. split; intros G s Hs; apply holdsb_iff; auto. }
  pose proof (find_number (fun x : nat * frow => rowb v (slots (snd x))) fr 0) as F. rewrite fr_eq in *. rewrite find_map in F.
  rewrite (find_ext_in (fun x => rowb v (slots (snd (altrow t x)))) (fun x => pmatch (snd (fst x)) v) L E) in F.
  destruct (find _ (number 0 (map (altrow t) L))) as [[k y]|] eqn:Q; cbn [option_map final fst snd].
  - destruct F as (_ & F1 & F2). rewrite Nat.sub_0_r, nth_error_map in F1. destruct (nth_error L k) as [x|] eqn:N; [|discriminate]. exists x. split; [reflexivity|].
    (* the position is that of the first *)
    pose proof (find_number (fun x => pmatch (snd (fst x)) v) L 0) as F'.
    assert (NM : forall i, number i (map (altrow t) L) = map (fun z => (fst z, altrow t (snd z))) (number i L)).
    { clear. induction L as [|a l IH]; intros i; cbn; [reflexivity|]. now rewrite IH. }
    rewrite NM, find_map in Q. cbn [snd fst] in Q.
    rewrite (find_ext_in _ (fun z => pmatch (snd (fst (snd z))) v)) in Q.
    2: { intros [j z] Hz. apply number_in in Hz as [_ Hz]. apply nth_error_In in Hz. now apply E. }
    destruct (find (fun z => pmatch (snd (fst (snd z))) v) (number 0 L)) as [[j z]|]; [|discriminate]. cbn in Q. injection Q as -> _.
    destruct F' as (_ & F'1 & F'2). rewrite Nat.sub_0_r in F'1. rewrite N in F'1. injection F'1 as <-. exact F'2.
  - destruct (find (fun x => pmatch (snd (fst x)) v) L); [discriminate|reflexivity].
Qed.

Theorem gendtree_run d v : gendtree ps t = Ok d -> wtv v t ->
  match first_arm ps v with
  | Some i => exists r cs b p, exec (S (root d)) (dnodes d) (root d) v = Accept r /\ nth_error (arms d) r = Some (i, cs, b) /\ nth_error ps i = Some p /\
       map (fun c => (fst c, loadv (snd c) v)) cs = map (fun x => (fst x, Some (snd x))) (bind p v)
  | None => exec (S (root d)) (dnodes d) (root d) v = Falls end.
Proof.
  intros G Hv. unfold gendtree in G. fold fr in G. fold (rows_of fr) in G. destruct (negb (caps_ok fr)); [discriminate|].
  destruct (compile _ (rows_of fr) _) as [[i s]| | | | |] eqn:E; try discriminate. destruct (find _ (number 0 fr)); [discriminate|]. destruct (verifymatch _ _ _); [|discriminate]. injection G as <-. cbn [root dnodes arms].
  destruct (compile_rows _ _ _ E) as [_ [_ K]]. destruct (K v (origs_vok v Hv) (rows_invv v)) as [K1 _]. rewrite K1. unfold firsto.
  pose proof (rows_first v Hv) as RF. pose proof (first_alt ps v 0) as FA. fold L in FA. destruct (find (fun r => rowb v (rslots r)) (rows_of fr)) as [r|].
  - destruct RF as (x & N & F). rewrite F in FA. destruct FA as (k & p & A1 & A2 & A3 & A4 & A5). rewrite A1. cbn in A2. eexists (final r), _, _, p. split; [reflexivity|].
    rewrite fr_eq, !nth_error_map, N. cbn. rewrite A2. split; [reflexivity|]. split; [exact A3|]. rewrite <- A4.
    apply find_some in F as [F _]. destruct (altlist_ok _ _ _ _ H F) as [P W]. now apply pcp_bind.
  - rewrite RF in FA. now rewrite FA.
Qed.
Theorem gendtree_redundant i : gendtree ps t = Redundant i -> exists k q b, nth_error L k = Some (i, q, b) /\
  forall v, wtv v t -> pmatch q v = true -> exists k' x, (k' < k)%nat /\ nth_error L k' = Some x /\ pmatch (snd (fst x)) v = true.
Proof.
  intros G. unfold gendtree in G. fold fr in G. fold (rows_of fr) in G. destruct (negb (caps_ok fr)); [discriminate|].
  destruct (compile _ (rows_of fr) _) as [[d s]| | | | |] eqn:E; try discriminate. destruct (find _ (number 0 fr)) as [[k y]|] eqn:F; [|destruct (verifymatch _ _ _); discriminate]. injection G as <-.
  apply find_some in F as [F NR]. apply number_in in F as [_ F]. cbn [fst snd] in *. rewrite Nat.sub_0_r in F.
  rewrite fr_eq, nth_error_map in F. destruct (nth_error L k) as [[[j q] b]|] eqn:N; [|discriminate]. cbn in F. injection F as <-. exists k, q, b. split; [exact N|].
  intros v Hv M. destruct (compile_rows _ _ _ E) as [_ [_ K]]. destruct (K v (origs_vok v Hv) (rows_invv v)) as [_ K2].
  pose proof (rows_first v Hv) as RF. destruct (find (fun r => rowb v (rslots r)) (rows_of fr)) as [r|] eqn:Fr.
  - destruct RF as (x & Nx & Fx). specialize (K2 r eq_refl). exists (final r), x. repeat split; [|exact Nx|apply find_some in Fx; tauto].
    (* r comes first: not after k *)
    assert (NE : final r <> k).
    { intros C. subst k. rewrite Bool.negb_true_iff in NR. apply Bool.not_true_iff_false in NR. apply NR. apply existsb_exists. exists (final r). split; [exact K2|apply Nat.eqb_refl]. }
    destruct (Nat.lt_trichotomy (final r) k) as [?|[?|GT]]; [assumption|contradiction|exfalso].
    unfold rows_of in Fr. rewrite find_map in Fr. destruct (find _ (number 0 fr)) as [[m z]|] eqn:Q; [|discriminate]. cbn in Fr. injection Fr as <-. cbn [final] in *.
    assert (G : forall (l : list (nat * frow)) i m z f, find f (number i l) = Some (m, z) -> forall k y, (i <= k < m)%nat -> nth_error l (k - i) = Some y -> f (k, y) = false).
    { clear. induction l as [|a l IH]; intros i m z f Q k y Hk Hy; cbn in Q; [discriminate|]. destruct (f (i, a)) eqn:Ef; [injection Q as <- <-; lia|].
      destruct (Nat.eq_dec i k) as [<-|NE]; [rewrite Nat.sub_diag in Hy; injection Hy as <-; exact Ef|]. replace (k - i)%nat with (S (k - S i)) in Hy by lia. eapply IH; [exact Q| |exact Hy]. lia. }
    assert (Nk : nth_error fr (k - 0) = Some (altrow t (j, q, b))) by (rewrite Nat.sub_0_r, fr_eq, nth_error_map, N; reflexivity).
    pose proof (G fr 0%nat m z _ Q k _ ltac:(lia) Nk) as Z0. cbn in Z0.
    destruct (altlist_ok _ _ _ _ H (nth_error_In _ _ N)) as [A B]. cbn in A, B. destruct (psl_sound _ t LVar [O] v v A B Hv eq_refl) as [_ S].
    apply S in M. unfold rowb in Z0. apply Bool.not_true_iff_false in Z0. apply Z0. rewrite forallb_forall. rewrite Forall_forall in M. intros s0 Hs. apply holdsb_iff. auto.
  - exfalso. apply nth_error_In in N. apply (find_none _ _ RF) in N. cbn in N. congruence.
Qed.
End Plain.
