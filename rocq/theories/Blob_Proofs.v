From Verif Require Import Base CUtil_Model Layout_Model Layout_Spec Layout_Proofs Blob_Model Blob_Spec.
Local Open Scope N_scope.

Section Ind.
Variable P : init -> Prop.
Hypothesis Hscalar : forall i, match i with Iucon _ _ _ | Istruct _ _ | Itup _ _ | Iarr _ _ => False | _ => True end -> P i.
Hypothesis Hucon : forall t name arg, (forall a, arg = Some a -> P a) -> P (Iucon t name arg).
Hypothesis Hstruct : forall t args, Forall (fun a => P (snd a)) args -> P (Istruct t args).
Hypothesis Htup : forall t args, Forall P args -> P (Itup t args).
Hypothesis Harr : forall t args, Forall (fun a => P (snd a)) args -> P (Iarr t args).
Fixpoint init_ind' (i : init) : P i.
Proof.
  destruct i; try (apply Hscalar; exact I).
  - apply Hucon. destruct arg as [a|]; intros b E; [|discriminate]. injection E as <-. apply init_ind'.
  - apply Hstruct. induction args as [|[x a] l IH]; constructor; [apply init_ind'|exact IH].
  - apply Htup. induction args as [|a l IH]; constructor; [apply init_ind'|exact IH].
  - apply Harr. induction args as [|[x a] l IH]; constructor; [apply init_ind'|exact IH].
Defined.
End Ind.

Definition cells (b : list blob) : list cell := flat_map writeblob b.
Definition len (l : list cell) : N := N.of_nat (length l).

Lemma cells_app a b : cells (a ++ b) = (cells a ++ cells b)%list.
Proof. apply flat_map_app. Qed.
Lemma len_app a b : len (a ++ b) = len a + len b.
Proof. unfold len. rewrite app_length. lia. Qed.
Lemma len_le w v : len (le w v) = N.of_nat w.
Proof. unfold len. f_equal. revert v; induction w; intros v; cbn; auto. Qed.
Lemma len_zeros n : len (zeros n) = n.
Proof. unfold len, zeros. rewrite repeat_length. lia. Qed.
Lemma cells_pad n : cells (blobpad n) = zeros n.
Proof. unfold blobpad. destruct (N.eqb_spec n 0) as [->|_]; cbn; [reflexivity|]. apply app_nil_r. Qed.
Lemma zeros_add a b : zeros (a + b) = (zeros a ++ zeros b)%list.
Proof. unfold zeros. rewrite N2Nat.inj_add, repeat_app. reflexivity. Qed.

Lemma At_app img o a b : At img o (a ++ b) -> At img o a /\ At img (o + len a) b.
Proof.
  intros (pre & post & E & L). split.
  - exists pre, (b ++ post)%list. rewrite E, <- !app_assoc. auto.
  - exists (pre ++ a)%list, post. rewrite E, <- !app_assoc. split; auto. rewrite app_length. unfold len. lia.
Qed.
Lemma At_self img : At img 0 img.
Proof. exists [], []. rewrite app_nil_r. auto. Qed.

Lemma sub64_le a b : b <= a -> a < W64 -> sub64 a b = a - b.
Proof.
  intros H L. unfold sub64. replace (a + W64 - b) with (a - b + 1 * W64) by lia.
  rewrite N.mod_add by discriminate. apply N.mod_small. lia.
Qed.
Lemma padto a b : b <= a -> a < W64 -> add64 b (sub64 a b) = a.
Proof. intros H L. rewrite sub64_le by auto. rewrite add64_small; lia. Qed.

(* --- the struct loop --- *)
Definition good (u : ty) (r : list blob * N) : Prop := snd r = extent u /\ len (cells (fst r)) = extent u.

Lemma good_missing u : extent u < W64 -> good u (blobpad (tysize u), tysize u).
Proof. intros H. split; cbn [fst snd]; [|rewrite cells_pad, len_zeros]; now apply tysize_extent. Qed.

Definition emitted (res : list (string * (list blob * N))) (x : string) (u : ty) : list cell :=
  match structmemb res x with Some r => cells (fst r) | None => zeros (extent u) end.

Lemma blobstruct_spec res ms o :
  (forall x u r, In (x, u) ms -> structmemb res x = Some r -> good u r) ->
  fold_left strext ms o < W64 ->
  let '(b, sz) := blobstruct res ms o in
  sz = fold_left strext ms o /\ o + len (cells b) = sz /\
  forall img base, At img (base + o) (cells b) ->
    forall i x u p, nth_error ms i = Some (x, u) -> nth_error (places o (map snd ms)) i = Some p ->
      At img (base + p) (emitted res x u).
Proof.
  revert o. induction ms as [|[x u] l IH]; intros o G B; cbn [blobstruct].
  - cbn. repeat split; try lia. intros img base _ [|i] x u p; discriminate.
  - cbn [fold_left] in B. change (strext o (x, u)) with (tupext o u) in B.
    pose proof (fold_tupext_ge (map snd l) (tupext o u)) as M. rewrite <- fold_strext in M.
    pose proof (tupext_ge o u) as M2. pose proof (roundup_ge o _ (alignment_pos u)) as M3.
    assert (roundup o (alignment u) + extent u = tupext o u) as TE by reflexivity.
    rewrite alignto_spec by lia. rewrite padto by lia. rewrite sub64_le by lia.
    set (p := roundup o (alignment u)) in *.
    assert (exists b2, (match structmemb res x with Some r => r | None => (blobpad (tysize u), tysize u) end) = (b2, extent u)
              /\ cells b2 = emitted res x u /\ len (cells b2) = extent u) as (b2 & E2 & C2 & L2).
    { unfold emitted. destruct (structmemb res x) as [[b2 n]|] eqn:ES.
      - destruct (G x u _ (or_introl eq_refl) ES) as [G1 G2]. cbn [fst snd] in *. exists b2. subst n. auto.
      - rewrite tysize_extent by lia. exists (blobpad (extent u)). rewrite cells_pad, len_zeros. auto. }
    rewrite E2. rewrite add64_small by lia. rewrite TE.
    specialize (IH (tupext o u) (fun x' u' r Hin => G x' u' r (or_intror Hin)) B).
    destruct (blobstruct res l (tupext o u)) as [b3 sz]. destruct IH as (I1 & I2 & I3).
    rewrite !cells_app, !len_app, cells_pad, len_zeros.
    cbn [fold_left]. change (strext o (x, u)) with (tupext o u).
    split; [exact I1|]. split; [lia|].
    intros img base A. apply At_app in A as [_ A]. rewrite len_zeros in A. apply At_app in A as [A2 A3].
    rewrite L2 in A3.
    intros [|i] x' u' p' Hi Hp; cbn [nth_error places map] in *.
    + injection Hi as <- <-. injection Hp as <-. cbn [snd]. fold p. rewrite <- C2.
      replace (base + p) with (base + o + (p - o)) by lia. exact A2.
    + refine (I3 img base _ i x' u' p' Hi Hp).
      replace (base + tupext o u) with (base + o + (p - o) + extent u) by lia. exact A3.
Qed.

Lemma structmemb_in {A} (args : list (string * A)) x a : structmemb args x = Some a -> In (x, a) args.
Proof.
  induction args as [|[y b] l IH]; cbn; [discriminate|]. destruct (String.eqb_spec y x) as [->|N]; intros H.
  - injection H as ->. auto.
  - auto.
Qed.
Lemma structmemb_map {A B} (f : A -> B) (args : list (string * A)) x :
  structmemb (map (fun a => (fst a, f (snd a))) args) x = option_map f (structmemb args x).
Proof. induction args as [|[y b] l IH]; cbn; auto. destruct (String.eqb y x); auto. Qed.
Lemma structmemb_nodup {A} (args : list (string * A)) x a :
  NoDup (map fst args) -> In (x, a) args -> structmemb args x = Some a.
Proof.
  induction args as [|[y b] l IH]; cbn [map fst structmemb In]; [tauto|]. intros ND [E|H].
  - injection E as -> ->. now rewrite String.eqb_refl.
  - apply NoDup_cons_iff in ND as [N1 N2]. destruct (String.eqb_spec y x) as [->|Ne]; auto.
    exfalso. apply N1. apply (in_map fst) in H. exact H.
Qed.
Lemma structmemb_none {A} (args : list (string * A)) x : ~ In x (map fst args) -> structmemb args x = None.
Proof.
  intros H. destruct (structmemb args x) as [a|] eqn:E; auto. apply structmemb_in in E.
  exfalso. apply H. apply (in_map fst) in E. exact E.
Qed.

(* --- the tuple loop --- *)
Lemma blobtup_spec args o :
  (forall a, In a args -> good (exprtype a) (blobrec a)) ->
  fold_left tupext (map exprtype args) o < W64 ->
  let '(b, sz) := blobtup (map (fun a => (exprtype a, blobrec a)) args) o in
  sz = fold_left tupext (map exprtype args) o /\ o + len (cells b) = sz /\
  forall img base, At img (base + o) (cells b) ->
    forall i a p, nth_error args i = Some a -> nth_error (places o (map exprtype args)) i = Some p ->
      At img (base + p) (cells (fst (blobrec a))).
Proof.
  revert o. induction args as [|a l IH]; intros o G B; cbn [map blobtup].
  - cbn. repeat split; try lia. intros img base _ [|i] x p; discriminate.
  - cbn [fold_left map] in B. set (u := exprtype a) in *.
    pose proof (fold_tupext_ge (map exprtype l) (tupext o u)) as M.
    pose proof (tupext_ge o u) as M2. pose proof (roundup_ge o _ (alignment_pos u)) as M3.
    assert (roundup o (alignment u) + extent u = tupext o u) as TE by reflexivity.
    destruct (G a (or_introl eq_refl)) as [G1 G2]. fold u in G1, G2.
    destruct (blobrec a) as [b2 n] eqn:EA. cbn [fst snd] in G1, G2. subst n.
    rewrite alignto_spec by lia. rewrite padto by lia. rewrite sub64_le by lia.
    set (p := roundup o (alignment u)) in *. rewrite add64_small by lia. rewrite TE.
    specialize (IH (tupext o u) (fun x Hin => G x (or_intror Hin)) B).
    destruct (blobtup _ (tupext o u)) as [b3 sz]. destruct IH as (I1 & I2 & I3).
    rewrite !cells_app, !len_app, cells_pad, len_zeros. cbn [fold_left].
    split; [exact I1|]. split; [lia|].
    intros img base A. apply At_app in A as [_ A]. rewrite len_zeros in A. apply At_app in A as [A2 A3].
    rewrite G2 in A3.
    intros [|i] a' p' Hi Hp; cbn [nth_error places map] in *.
    + injection Hi as <-. injection Hp as <-. fold u. fold p. rewrite EA. cbn [fst].
      replace (base + p) with (base + o + (p - o)) by lia. exact A2.
    + refine (I3 img base _ i a' p' Hi Hp).
      replace (base + tupext o u) with (base + o + (p - o) + extent u) by lia. exact A3.
Qed.

(* --- the array loop --- *)
Definition aend (last : N) (l : list N) : N := fold_left (fun _ i => i + 1) l last.

Fixpoint from (last : N) (l : list N) : Prop :=
  match l with [] => True | i :: l => last <= i /\ from (i + 1) l end.
Lemma increasing_from l : increasing l -> from 0 l.
Proof.
  assert (forall l i, Sorted N.lt (i :: l) -> from (i + 1) l) as G.
  { clear. induction l as [|j l IH]; intros i S; cbn; auto.
    inversion S as [|? ? S' H]; subst. inversion H; subst. split; [lia|]. apply IH; auto. }
  destruct l as [|i l]; cbn; auto. intros S. split; [lia|]. apply G; auto.
Qed.
Lemma aend_ge l last : from last l -> last <= aend last l /\ (forall i, In i l -> last <= i < aend last l).
Proof.
  revert last; induction l as [|i l IH]; intros last H; cbn [aend fold_left In] in *; [split; [lia|tauto]|].
  destruct H as [H1 H2]. fold (aend (i + 1) l). destruct (IH _ H2) as [G1 G2]. split; [lia|].
  intros j [<-|Hj]; [lia|]. specialize (G2 j Hj). lia.
Qed.

Lemma zeros_at img o E i j n : At img o (zeros (n * E)) -> i + 1 <= n -> j = i * E -> At img (o + j) (zeros E).
Proof.
  intros A L ->. replace (n * E) with (i * E + (E + (n - i - 1) * E)) in A by nia.
  rewrite !zeros_add in A. apply At_app in A as [_ A]. apply At_app in A as [A _]. rewrite len_zeros in A. exact A.
Qed.

Lemma blobarr_spec e args last :
  (forall i a, In (i, a) args -> exprtype a = e /\ good e (blobrec a)) ->
  extent e < W64 ->
  from last (map fst args) -> no_single_gap last (map fst args) ->
  aend last (map fst args) * extent e < W64 -> aend last (map fst args) < W64 ->
  let '(b, sz) := blobarr (map (fun a => (fst a, size (snd a), blobrec (snd a))) args) last (last * extent e) in
  sz = aend last (map fst args) * extent e /\ last * extent e + len (cells b) = sz /\
  forall img base, At img (base + last * extent e) (cells b) ->
    (forall i a, In (i, a) args -> At img (base + i * extent e) (cells (fst (blobrec a)))) /\
    (forall i, last <= i < aend last (map fst args) -> ~ In i (map fst args) -> At img (base + i * extent e) (zeros (extent e))).
Proof.
  revert last. induction args as [|[idx a] l IH]; intros last G BE F NG B1 B2; cbn [map blobarr fst snd].
  - cbn [aend fold_left map]. split; [reflexivity|]. split; [unfold len; cbn; lia|].
    intros img base _. split; [intros i a []|]. intros i H. lia.
  - cbn [map fst from no_single_gap aend fold_left] in *. fold (aend (idx + 1) (map fst l)) in *.
    destruct F as [F1 F2], NG as [NG1 NG2]. destruct (aend_ge _ _ F2) as [A1 A2].
    set (m := aend (idx + 1) (map fst l)) in *.
    destruct (G idx a (or_introl eq_refl)) as [Ge [G1 G2]].
    destruct (blobrec a) as [b2 n] eqn:EA. cbn [fst snd] in G1, G2. subst n.
    assert ((idx + 1) * extent e <= m * extent e) as LB by nia.
    assert (add64 last 1 = last + 1) as -> by (apply add64_small; lia).
    destruct (N.eqb_spec idx (last + 1)) as [Eq|_]; [contradiction|].
    assert (size a = extent e) as Es by (unfold size; rewrite Ge; now apply tysize_extent).
    rewrite Es. rewrite sub64_le by lia.
    assert (mul64 (idx - last) (extent e) = (idx - last) * extent e) as -> by (unfold mul64; apply N.mod_small; nia).
    assert (last * extent e + (idx - last) * extent e = idx * extent e) as EG by nia.
    rewrite (add64_small idx 1) by lia. rewrite (add64_small (last * extent e)) by lia. rewrite EG.
    rewrite (add64_small (idx * extent e)) by lia.
    replace (idx * extent e + extent e) with ((idx + 1) * extent e) by lia.
    specialize (IH (idx + 1) (fun i x Hin => G i x (or_intror Hin)) BE F2 NG2 B1 B2).
    destruct (blobarr _ (idx + 1) ((idx + 1) * extent e)) as [b3 sz]. destruct IH as (I1 & I2 & I3).
    rewrite !cells_app, !len_app, cells_pad, len_zeros. split; [exact I1|]. split; [lia|].
    intros img base A. apply At_app in A as [Az A]. rewrite len_zeros in A. apply At_app in A as [Aa A3].
    rewrite G2 in A3. replace (base + last * extent e + (idx - last) * extent e) with (base + idx * extent e) in * by lia.
    destruct (I3 img base) as [J1 J2].
    { replace (base + (idx + 1) * extent e) with (base + idx * extent e + extent e) by lia. exact A3. }
    split.
    + intros i x [E|Hin]; [injection E as <- <-; rewrite EA; exact Aa|]. apply J1; auto.
    + intros i Hi Hn. destruct (N.lt_ge_cases i idx) as [L|L].
      * replace (base + i * extent e) with (base + last * extent e + (i - last) * extent e) by nia.
        eapply zeros_at; [exact Az| |reflexivity]. lia.
      * assert (i <> idx) by (intros ->; apply Hn; left; reflexivity).
        apply J2; [lia|]. intros Hc. apply Hn. right. exact Hc.
Qed.

Lemma uconid_spec cs name e k : In (name, e) cs ->
  exists j, uconid cs name k = k + N.of_nat j /\ nth_error (map fst cs) j = Some name.
Proof.
  revert k; induction cs as [|[c f] l IH]; intros k H; cbn [uconid In map fst] in *; [tauto|].
  destruct (String.eqb_spec c name) as [->|Ne].
  - exists 0%nat. split; [lia|reflexivity].
  - destruct H as [E|H]; [injection E as -> ->; contradiction|].
    destruct (IH (k + 1) H) as (j & E1 & E2). exists (S j). split; [lia|exact E2].
Qed.

Lemma step_offset_base heap t s : step_offset heap t s = step_offset heap (tybase t) s.
Proof. induction t using ty_ind'; try reflexivity. rewrite step_offset_name. exact IHt. Qed.
Lemma wf_base t : wf t -> wf (tybase t).
Proof. induction t using ty_ind'; cbn [wf tybase]; auto. Qed.

Lemma blob_ok heap i : typed i -> gapfree i -> wf (exprtype i) -> extent (exprtype i) < W64 ->
  good (exprtype i) (blobrec i) /\ forall img o, At img o (cells (fst (blobrec i))) -> holds heap img o i.
Proof.
  induction i as [i Hs|t name arg IH|t args IH|t args IH|t args IH] using init_ind'; intros T GF W B.
  - (* scalars *)
    assert (forall t, extent t = extent (tybase t)) as EB by (intros t; symmetry; apply tybase_ext).
    inversion T; subst; try contradiction; cbn [exprtype] in *; unfold good; cbn [blobrec fst snd].
    + rewrite tysize_extent by auto. split; [split; auto|]. intros; constructor.
    + rewrite tysize_extent by auto. cbn [cells flat_map writeblob]. rewrite app_nil_r, len_le.
      split; [split; [auto|lia]|]. intros img o A. constructor. exact A.
    + rewrite tysize_extent by auto. rewrite EB, H. cbn [cells flat_map writeblob]. rewrite app_nil_r, len_le.
      split; [split; reflexivity|]. intros img o A. constructor. exact A.
    + rewrite tysize_extent by auto. rewrite EB, H. cbn [cells flat_map writeblob]. rewrite app_nil_r, len_le.
      split; [split; reflexivity|]. intros img o A. constructor. exact A.
    + rewrite tysize_extent by auto. rewrite EB, H. cbn [cells flat_map writeblob]. rewrite app_nil_r, len_le.
      split; [split; reflexivity|]. intros img o A. constructor. exact A.
    + rewrite tysize_extent by auto. rewrite EB, H. cbn [cells flat_map writeblob]. rewrite app_nil_r, len_le.
      split; [split; reflexivity|]. intros img o A. constructor. exact A.
    + rewrite tysize_extent by auto. rewrite EB, H. cbn [cells flat_map]. rewrite app_nil_r, len_app.
      destruct (N.ltb_spec 0 len0).
      * split; [split; [reflexivity|]|].
        { cbn [writeblob]. rewrite len_le. reflexivity. }
        intros img o A. cbn [fst] in A. apply At_app in A as [A1 A2]. constructor; [intros _; exact A1|exact A2].
      * split; [split; [reflexivity|]|].
        { cbn [writeblob]. rewrite !len_le. reflexivity. }
        intros img o A. apply At_app in A as [A1 A2]. constructor; [lia|exact A2].
    + rewrite tysize_extent by auto. rewrite EB, H. split; [split; reflexivity|].
      intros img o A. cbn [cells flat_map] in A. rewrite app_nil_r in A. apply At_app in A as [A1 A2]. constructor; [exact A1|exact A2].
    + rewrite EB, H. split; [split; reflexivity|].
      intros img o A. cbn [cells flat_map] in A. rewrite app_nil_r in A. apply At_app in A as [A1 A2]. constructor; [exact A1|exact A2].
    + rewrite EB, H. split; [split; [reflexivity|]|].
      { cbn [cells flat_map]. rewrite app_nil_r, len_app. cbn [writeblob]. rewrite len_le. reflexivity. }
      change (2 ^ 64) with W64 in *.
      intros img o A. cbn [cells flat_map] in A. rewrite app_nil_r in A. apply At_app in A as [A1 A2].
      cbn [writeblob] in A1, A2. unfold mul64 in A1. rewrite N.mod_small in A1 by auto. rewrite sub64_le in A2 by lia.
      constructor; [exact A1|exact A2].
  - (* unions *)
    cbn [exprtype] in *.
    assert (extent t = extent (tybase t)) as EB by (symmetry; apply tybase_ext).
    assert (alignment t = alignment (tybase t)) as AB by (symmetry; apply tybase_ext).
    inversion T as [| | | | | | | | | |? cs0 ? H1 H3|? cs0 ? a H1 H3 H4| | |]; subst.
    + assert (4 <= extent t) as E4.
      { rewrite EB, H1. cbn [extent].
        change (fun m c => N.max m match snd c with Some e => roundup 4 (alignment e) + extent e | None => 0 end) with uniext.
        pose proof (roundup_ge (fold_left uniext cs0 4) _ (alignment_pos (Tunion cs0))). pose proof (uniext_ge cs0 4). lia. }
      cbn [blobrec]. unfold good; cbn [fst snd]. rewrite tysize_extent by auto.
      rewrite padto by lia. rewrite sub64_le by lia.
      change (cells (Bi 4 (uconid (ucons t) name 0) :: blobpad (extent t - 4)))
        with (le 4 (uconid (ucons t) name 0) ++ cells (blobpad (extent t - 4)))%list.
      rewrite len_app, len_le, cells_pad, len_zeros. split; [split; lia|].
      intros img o A. apply At_app in A as [A _].
      assert (ucons t = cs0) as U by (unfold ucons; now rewrite H1).
      destruct (uconid_spec cs0 name None 0 H3) as (j & E1 & E2). rewrite U, E1 in A.
      apply h_ucon with (k := 0 + N.of_nat j); auto.
      { rewrite U. replace (N.to_nat (0 + N.of_nat j)) with j by lia. exact E2. }
      intros a Ha; discriminate.
    + pose proof (wf_base _ W) as Wb. rewrite H1 in Wb.
      assert (part t (Spayload name) (exprtype a)) as PT.
      { clear -H1 H3. revert H1. induction t using ty_ind'; cbn [tybase]; try discriminate; intros E; [apply part_name; auto|].
        injection E as ->. apply part_payload; auto. }
      destruct (part_ok heap t _ _ W B PT) as (off & SO & DV & LE & DA & Wa).
      assert (off = roundup 4 (alignment (exprtype a))) as Eoff.
      { rewrite step_offset_base, H1 in SO. unfold step_offset in SO; cbn [tybase] in SO.
        destruct Wb as [ND _]. rewrite (finducon_in _ _ _ ND H3) in SO. injection SO as <-.
        unfold ugetoff, Wordsz. apply alignto_spec. pose proof (p2_le _ (alignment_p2 (exprtype a))).
        pose proof (roundup_lt 4 _ (alignment_pos (exprtype a))). unfold W64. lia. }
      inversion GF as [|? ? ? GFa| | | |? Hb]; subst; [|contradiction].
      destruct (IH a eq_refl H4 GFa Wa ltac:(lia)) as [[Gn Gl] Gh].
      cbn [blobrec]. destruct (blobrec a) as [b n] eqn:EA. cbn [fst snd] in Gn, Gl, Gh. subst n.
      rewrite tyalign_spec. rewrite payload_off in * by apply alignment_p2.
      pose proof (p2_le _ (alignment_p2 (exprtype a))) as P8.
      assert ((if 4 <? alignment (exprtype a) then sub64 (alignment (exprtype a)) 4 else 0) = N.max 4 (alignment (exprtype a)) - 4) as EG.
      { destruct (N.ltb_spec 4 (alignment (exprtype a))); [|lia]. rewrite sub64_le; [lia|lia|unfold W64; lia]. }
      rewrite EG. set (off := N.max 4 (alignment (exprtype a))) in *.
      assert (off <= 8) by lia. rewrite (add64_small 4) by (unfold W64; lia).
      replace (4 + (off - 4)) with off by lia. rewrite (add64_small off) by lia.
      rewrite tysize_extent by auto. rewrite padto, sub64_le by lia.
      unfold good; cbn [fst snd].
      change (cells (Bi 4 (uconid (ucons t) name 0) :: blobpad (off - 4) ++ b ++ blobpad (extent t - (off + extent (exprtype a))))%list)
        with (le 4 (uconid (ucons t) name 0) ++ cells (blobpad (off - 4) ++ b ++ blobpad (extent t - (off + extent (exprtype a)))))%list.
      rewrite !cells_app, !len_app, len_le, !cells_pad, !len_zeros, Gl.
      split; [split; lia|].
      intros img o A. apply At_app in A as [A A2]. apply At_app in A2 as [_ A2]. apply At_app in A2 as [A2 _].
      rewrite len_le, len_zeros in A2.
      assert (ucons t = cs0) as U by (unfold ucons; now rewrite H1).
      destruct (uconid_spec cs0 name _ 0 H3) as (j & E1 & E2). rewrite U, E1 in A.
      apply h_ucon with (k := 0 + N.of_nat j); auto.
      { rewrite U. replace (N.to_nat (0 + N.of_nat j)) with j by lia. exact E2. }
      intros a' Ha. injection Ha as <-. exists off. split; [exact SO|]. apply Gh.
      replace (o + off) with (o + N.of_nat 4 + (off - 4)) by lia. exact A2.
  - (* structs *)
    cbn [exprtype] in *. inversion T as [| | | | | | | | | | | |? ms ? TB ND TA| |]; subst.
    inversion GF as [| |? ? GFa| | |? Hb]; subst; [|contradiction].
    assert (members t = ms) as M by (unfold members; now rewrite TB).
    assert (extent t = extent (tybase t)) as EB by (symmetry; apply tybase_ext). rewrite TB in EB.
    assert (alignment t = alignment (tybase t)) as AB by (symmetry; apply tybase_ext). rewrite TB in AB.
    pose proof (wf_base _ W) as Wb. rewrite TB in Wb. rewrite EB in B.
    assert (forall x u, In (x, u) ms -> wf u /\ extent u < W64) as Sub.
    { intros x u Hin. destruct (part_ok heap _ _ _ Wb B (part_field ms x u Hin)) as (o & _ & _ & L & _ & Wu). split; [auto|lia]. }
    cbn [extent] in EB, B.
    change (fun o m => roundup o (alignment (snd m)) + extent (snd m)) with strext in *.
    pose proof (roundup_ge (fold_left strext ms 0) _ (alignment_pos (Tstruct ms))) as G.
    assert (forall x a, In (x, a) args -> good (exprtype a) (blobrec a) /\
              forall img o, At img o (cells (fst (blobrec a))) -> holds heap img o a) as IH'.
    { intros x a Hin. rewrite Forall_forall in IH. destruct (TA x a Hin) as [T1 T2]. destruct (Sub _ _ T1) as [S1 S2].
      apply (IH (x, a) Hin); auto. eapply GFa; eauto. }
    assert (NoDup (map fst ms)) as NDm by apply Wb.
    pose proof (blobstruct_spec (map (fun a => (fst a, blobrec (snd a))) args) ms 0) as SP.
    specialize (SP). cbn [blobrec]. rewrite M.
    destruct (blobstruct (map (fun a => (fst a, blobrec (snd a))) args) ms 0) as [b sz].
    destruct SP as (S1 & S2 & S3).
    { intros x u r Hin E. rewrite structmemb_map in E. destruct (structmemb args x) as [a|] eqn:EA; [|discriminate].
      injection E as <-. apply structmemb_in in EA. destruct (IH' x a EA) as [Ga _]. destruct (TA x a EA) as [T1 _].
      assert (u = exprtype a) as ->; [|exact Ga].
      pose proof (structmemb_nodup ms x u NDm Hin). pose proof (structmemb_nodup ms x _ NDm T1). congruence. }
    { lia. }
    subst sz. unfold good; cbn [fst snd]. rewrite alignto_spec by (rewrite AB; lia). rewrite AB, <- EB in *.
    rewrite padto, sub64_le by lia. rewrite cells_app, len_app, cells_pad, len_zeros.
    split; [split; lia|].
    intros img o A. apply At_app in A as [A _].
    replace o with (o + 0) in A by lia. specialize (S3 img o A).
    assert (forall x u, In (x, u) ms -> exists off, step_offset heap t (Sfield x) = Some off /\
              At img (o + off) (emitted (map (fun a => (fst a, blobrec (snd a))) args) x u)) as Loc.
    { intros x u Hin. apply In_nth_error in Hin as [i Hi].
      assert (nth_error (map snd ms) i = Some u) as Hi' by (rewrite nth_error_map, Hi; reflexivity).
      destruct (places_at (map snd ms) 0 i u Hi') as (p & Ep & _ & _ & _). exists p. split; [|eauto].
      rewrite step_offset_base, TB. unfold step_offset, tyoffset; cbn [tybase].
      rewrite (structoff_spec ms 0 x u i) by (auto; lia). exact Ep. }
    constructor.
    + intros x a Hin. destruct (TA x a Hin) as [T1 _]. destruct (Loc x _ T1) as (off & E1 & E2). exists off. split; auto.
      apply (IH' x a Hin). unfold emitted in E2. rewrite structmemb_map, (structmemb_nodup _ _ _ ND Hin) in E2. exact E2.
    + intros x u Hin Hn. rewrite M in Hin. destruct (Loc x _ Hin) as (off & E1 & E2). exists off. split; auto.
      unfold emitted in E2. rewrite structmemb_map, (structmemb_none _ _ Hn) in E2. exact E2.
  - (* tuples *)
    cbn [exprtype] in *. inversion T as [| | | | | | | | | | | | |? ? TB TA|]; subst.
    inversion GF as [| | |? ? GFa| |? Hb]; subst; [|contradiction].
    assert (extent t = extent (tybase t)) as EB by (symmetry; apply tybase_ext). rewrite TB in EB.
    assert (alignment t = alignment (tybase t)) as AB by (symmetry; apply tybase_ext). rewrite TB in AB.
    pose proof (wf_base _ W) as Wb. rewrite TB in Wb. rewrite EB in B.
    assert (forall i a, nth_error args i = Some a -> exists off, step_offset heap t (Selt i) = Some off /\
              nth_error (places 0 (map exprtype args)) i = Some off /\ wf (exprtype a) /\ extent (exprtype a) < W64) as Sub.
    { intros i a Hi. assert (nth_error (map exprtype args) i = Some (exprtype a)) as Hi' by (rewrite nth_error_map, Hi; reflexivity).
      destruct (part_ok heap _ _ _ Wb B (part_elt _ i _ Hi')) as (o & SO & _ & L & _ & Wu). exists o.
      rewrite step_offset_base, TB. split; [exact SO|]. split; [|split; [auto|lia]].
      unfold step_offset, tyoffset in SO; cbn [tybase] in SO. rewrite tupoff_spec in SO; auto.
      - cbn [extent] in B. change (fun o x => roundup o (alignment x) + extent x) with tupext in B.
        pose proof (roundup_ge (fold_left tupext (map exprtype args) 0) _ (alignment_pos (Ttuple (map exprtype args)))). lia.
      - destruct args; cbn [map]; auto. apply roundup_id; [apply alignment_pos|apply N.divide_0_r]. }
    cbn [extent] in EB, B. change (fun o x => roundup o (alignment x) + extent x) with tupext in *.
    pose proof (roundup_ge (fold_left tupext (map exprtype args) 0) _ (alignment_pos (Ttuple (map exprtype args)))) as G.
    assert (forall a, In a args -> good (exprtype a) (blobrec a) /\
              forall img o, At img o (cells (fst (blobrec a))) -> holds heap img o a) as IH'.
    { intros a Hin. rewrite Forall_forall in IH. pose proof Hin as Hin'. apply In_nth_error in Hin' as [i Hi].
      destruct (Sub i a Hi) as (off & _ & _ & S1 & S2). apply IH; auto. }
    cbn [blobrec]. destruct args as [|a0 l].
    { unfold good; cbn [fst snd]. rewrite EB. split; [split; reflexivity|].
      intros img o _. constructor. intros [|i] a; discriminate. }
    set (args := a0 :: l) in *.
    pose proof (blobtup_spec args 0 (fun a Hin => proj1 (IH' a Hin)) ltac:(lia)) as SP.
    destruct (blobtup (map (fun a => (exprtype a, blobrec a)) args) 0) as [b sz]. destruct SP as (S1 & S2 & S3).
    subst sz. unfold good; cbn [fst snd]. rewrite alignto_spec by (rewrite AB; lia). rewrite AB, <- EB in *.
    rewrite padto, sub64_le by lia. rewrite cells_app, len_app, cells_pad, len_zeros.
    split; [split; lia|].
    intros img o A. apply At_app in A as [A _]. replace o with (o + 0) in A by lia. specialize (S3 img o A).
    constructor. intros i a Hi. destruct (Sub i a Hi) as (off & E1 & E2 & _). exists off. split; auto.
    apply IH'; [eapply nth_error_In; eauto|]. eauto.
  - (* arrays *)
    cbn [exprtype] in *. inversion T as [| | | | | | | | | | | | | |? ? n e TB TI TN Bn TA]; subst.
    inversion GF as [| | | |? ? NG GFa|? Hb]; subst; [|contradiction].
    assert (extent t = extent (tybase t)) as EB by (symmetry; apply tybase_ext). rewrite TB in EB.
    assert (alignment t = alignment (tybase t)) as AB by (symmetry; apply tybase_ext). rewrite TB in AB.
    pose proof (wf_base _ W) as Wb. rewrite TB in Wb. rewrite EB in B.
    fold (aend 0 (map fst args)) in *. set (n := aend 0 (map fst args)) in *.
    assert (forall i, i < n -> exists off, step_offset heap t (Sidx i) = Some off /\ (off = i * extent e) /\ wf e /\ extent e < W64) as Sub.
    { intros i Hi. destruct (part_ok heap _ _ _ Wb B (part_idx n e i Hi)) as (o & SO & _ & L & _ & Wu). exists o.
      rewrite step_offset_base, TB. split; [exact SO|]. unfold step_offset, idxoff, mul64 in SO; cbn [tybase] in SO.
      cbn [extent] in *. rewrite tysize_extent in SO by lia. rewrite N.mod_small in SO by nia.
      split; [congruence|]. split; [auto|lia]. }
    cbn [extent] in EB, B.
    pose proof (increasing_from _ TI) as Fr. destruct (aend_ge _ _ Fr) as [_ Ai]. fold n in Ai.
    assert (forall i a, In (i, a) args -> good e (blobrec a) /\ i < n /\
              forall img o, At img o (cells (fst (blobrec a))) -> holds heap img o a) as IH'.
    { intros i a Hin. rewrite Forall_forall in IH. destruct (TA i a Hin) as [T1 T2].
      assert (i < n) as Hi by (apply Ai; apply (in_map fst) in Hin; exact Hin).
      destruct (Sub i Hi) as (off & _ & _ & S1 & S2). rewrite <- T1.
      pose proof (IH (i, a) Hin T2 (GFa i a Hin)) as J. cbn [snd] in J. rewrite T1 in *. destruct J as [J1 J2]; auto. }
    cbn [blobrec]. destruct args as [|[i0 a0] l].
    { unfold good; cbn [fst snd]. rewrite EB. split; [split; reflexivity|].
      intros img o _. constructor; [intros i a []|]. intros n' e' i E Hi. rewrite TB in E. injection E as <- <-.
      cbn in n. unfold n in Hi. lia. }
    set (args := (i0, a0) :: l) in *.
    destruct (Sub i0) as (_ & _ & _ & We & Be). { apply (IH' i0 a0). left; reflexivity. }
    pose proof (blobarr_spec e args 0) as SP. fold n in SP.
    rewrite N.mul_0_l in SP.
    destruct (blobarr (map (fun a => (fst a, size (snd a), blobrec (snd a))) args) 0 0) as [b sz].
    destruct SP as (S1 & S2 & S3); auto.
    { intros i a Hin. destruct (IH' i a Hin) as [Ga _]. destruct (TA i a Hin) as [-> _]. auto. }
    subst sz. unfold good; cbn [fst snd].
    assert (roundup (n * extent e) (alignment t) = n * extent e) as RE.
    { apply roundup_id; [apply alignment_pos|]. rewrite AB. cbn [alignment]. apply N.divide_mul_r, extent_div. }
    rewrite alignto_spec by (rewrite RE; lia). rewrite RE, EB. rewrite padto, sub64_le by lia.
    rewrite cells_app, len_app, cells_pad, len_zeros. split; [split; lia|].
    intros img o A. apply At_app in A as [A _]. replace o with (o + 0 * extent e) in A by lia.
    rewrite N.mul_0_l in A. destruct (S3 img o A) as [J1 J2].
    constructor.
    + intros i a Hin. destruct (IH' i a Hin) as (_ & Hi & Hh). destruct (Sub i Hi) as (off & E1 & -> & _).
      eexists; split; [exact E1|]. apply Hh. auto.
    + intros n' e' i E Hi Hn. rewrite TB in E. injection E as <- <-. fold n in Hi.
      destruct (Sub i Hi) as (off & E1 & -> & _). eexists; split; [exact E1|]. apply J2; auto. lia.
Qed.
