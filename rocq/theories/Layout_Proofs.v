From Verif Require Import Base CUtil_Model CUtil_Proofs Layout_Model Layout_Spec.
Local Open Scope N_scope.

(* induction over types, through the lists of parts *)
Section Ind.
Variable P : ty -> Prop.
Hypothesis Hprim : forall p, P (Tprim p).
Hypothesis Hptr : forall i, P (Tptr i).
Hypothesis Hslice : forall i, P (Tslice i).
Hypothesis Hcode : P Tcode.
Hypothesis Hfunc : P Tfunc.
Hypothesis Hname : forall d, P d -> P (Tname d).
Hypothesis Harray : forall n e, P e -> P (Tarray n e).
Hypothesis Htuple : forall ts, Forall P ts -> P (Ttuple ts).
Hypothesis Hstruct : forall ms, Forall (fun m => P (snd m)) ms -> P (Tstruct ms).
Hypothesis Hunion : forall cs, Forall (fun c => match snd c with Some e => P e | None => True end) cs -> P (Tunion cs).
Fixpoint ty_ind' (t : ty) : P t :=
  match t with
  | Tprim p => Hprim p
  | Tptr i => Hptr i
  | Tslice i => Hslice i
  | Tcode => Hcode
  | Tfunc => Hfunc
  | Tname d => Hname d (ty_ind' d)
  | Tarray n e => Harray n e (ty_ind' e)
  | Ttuple ts => Htuple ts ((fix go l : Forall P l := match l with
      [] => Forall_nil _ | x :: l => Forall_cons _ (ty_ind' x) (go l) end) ts)
  | Tstruct ms => Hstruct ms ((fix go l : Forall (fun m => P (snd m)) l := match l with
      [] => Forall_nil _ | x :: l => Forall_cons _ (ty_ind' (snd x)) (go l) end) ms)
  | Tunion cs => Hunion cs ((fix go l : Forall (fun c => match snd c with Some e => P e | None => True end) l :=
      match l with
      | [] => Forall_nil _
      | (c, Some e) :: l => Forall_cons (c, Some e) (ty_ind' e) (go l)
      | (c, None) :: l => Forall_cons (c, None) I (go l)
      end) cs)
  end.
End Ind.

Definition p2 (a : N) : Prop := a = 1 \/ a = 2 \/ a = 4 \/ a = 8.

Lemma p2_max a b : p2 a -> p2 b -> p2 (N.max a b).
Proof. unfold p2. lia. Qed.
Lemma p2_maxlist l : Forall p2 l -> p2 (maxlist l).
Proof. induction 1; cbn; [left; reflexivity|apply p2_max; auto]. Qed.
Lemma p2_max_div a b : p2 a -> p2 b -> a <= b -> N.divide a b.
Proof.
  intros [->|[->|[->| ->]]] [->|[->|[->| ->]]] H; try lia;
  first [now exists 1|now exists 2|now exists 4|now exists 8].
Qed.

Lemma alignment_p2 t : p2 (alignment t).
Proof.
  induction t using ty_ind'; cbn [alignment]; try (unfold p2; lia); auto.
  - destruct p; unfold p2; cbn; lia.
  - apply p2_maxlist. apply Forall_map. exact H.
  - apply p2_maxlist. apply Forall_map. exact H.
  - apply p2_max; [unfold p2; lia|]. apply p2_maxlist. apply Forall_map.
    eapply Forall_impl; [|exact H]. intros [c [e|]]; cbn; auto. intros _; left; reflexivity.
Qed.

Lemma alignment_pos t : alignment t <> 0.
Proof. destruct (alignment_p2 t) as [E|[E|[E|E]]]; rewrite E; discriminate. Qed.

Lemma maxlist_ge l x : In x l -> x <= maxlist l.
Proof.
  unfold maxlist. induction l as [|y l IH]; cbn [In fold_right]; [tauto|]. intros [->|H]; [lia|]. specialize (IH H). lia.
Qed.

(* --- roundup --- *)
Lemma roundup_eq n a : a <> 0 -> exists r, roundup n a + r = n + a - 1 /\ r < a.
Proof.
  intros Ha. unfold roundup. exists ((n + a - 1) mod a).
  pose proof (N.div_mod (n + a - 1) a Ha). pose proof (N.mod_lt (n + a - 1) a Ha).
  rewrite (N.mul_comm _ a). split; lia.
Qed.
Lemma roundup_ge n a : a <> 0 -> n <= roundup n a.
Proof. intros Ha. destruct (roundup_eq n a Ha) as (r & E & L). lia. Qed.
Lemma roundup_div n a : N.divide a (roundup n a).
Proof. unfold roundup. exists ((n + a - 1) / a). reflexivity. Qed.
Lemma roundup_lt n a : a <> 0 -> roundup n a < n + a.
Proof. intros Ha. destruct (roundup_eq n a Ha) as (r & E & L). lia. Qed.
Lemma roundup_le n a m : a <> 0 -> N.divide a m -> n <= m -> roundup n a <= m.
Proof.
  intros Ha [k ->] H. pose proof (roundup_lt n a Ha) as L. destruct (roundup_div n a) as [j E].
  rewrite E in *. apply N.mul_le_mono_r. nia.
Qed.
Lemma roundup_id n a : a <> 0 -> N.divide a n -> roundup n a = n.
Proof. intros Ha D. pose proof (roundup_ge n a Ha). pose proof (roundup_le n a n Ha D). lia. Qed.
Lemma roundup_mono n m a : a <> 0 -> n <= m -> roundup n a <= roundup m a.
Proof.
  intros Ha H. apply roundup_le; [auto|apply roundup_div|].
  pose proof (roundup_ge m a Ha). lia.
Qed.
Lemma roundup_max n m a : a <> 0 -> roundup (N.max n m) a = N.max (roundup n a) (roundup m a).
Proof.
  intros Ha. destruct (N.le_ge_cases n m) as [H|H].
  - pose proof (roundup_mono n m a Ha H). rewrite (N.max_r n m) by auto. lia.
  - pose proof (roundup_mono m n a Ha H). rewrite (N.max_l n m) by auto. lia.
Qed.
Lemma roundup_add n a k : a <> 0 -> N.divide a k -> roundup (n + k) a = roundup n a + k.
Proof.
  intros Ha [j ->]. unfold roundup.
  replace (n + j * a + a - 1) with (n + a - 1 + j * a) by lia.
  rewrite N.div_add by auto. lia.
Qed.

Lemma p2_pow a : p2 a -> exists p, a = 2 ^ p /\ p <= 3.
Proof. intros [->|[->|[->| ->]]]; [exists 0|exists 1|exists 2|exists 3]; split; try reflexivity; lia. Qed.

Lemma align_roundup n a : p2 a -> roundup n a < W64 -> align n a = roundup n a.
Proof.
  intros Ha H. assert (a <> 0) as Hz by (destruct Ha as [->|[->|[->| ->]]]; lia).
  destruct (p2_pow a Ha) as (p & E & Hp).
  assert (a <= 8) as Ha8 by (destruct Ha as [->|[->|[->| ->]]]; lia).
  assert (n + a - 1 < W64) as Hn.
  { pose proof (roundup_ge n a Hz). destruct (roundup_div n a) as [k Ek].
    assert (N.divide a W64) as [w Ew].
    { change W64 with (2305843009213693952 * 8). apply N.divide_mul_r.
      destruct Ha as [->|[->|[->| ->]]]; first [now exists 8|now exists 4|now exists 2|now exists 1]. }
    rewrite Ek, Ew in *. assert (k < w) by nia. nia. }
  assert (a <= W64) as Hw by (unfold W64; lia).
  pose proof (align_spec n p) as S. cbv zeta in S. rewrite <- E in S.
  destruct (S Hw Hn) as (S1 & S2 & S3). apply N.le_antisymm.
  - apply S3; [|apply roundup_ge; auto]. apply N.mod_divide; [auto|]. apply roundup_div.
  - apply roundup_le; auto. apply N.mod_divide; auto.
Qed.

(* --- tyalign --- *)
Fixpoint tupal a l := match l with [] => a | x :: l => tupal (N.max a (tyalign x)) l end.
Fixpoint stral a (l : list (string * ty)) := match l with [] => a | (_, x) :: l => stral (N.max a (tyalign x)) l end.
Fixpoint unial a (l : list (string * option ty)) := match l with
              | [] => a
              | (_, Some e) :: l => unial (N.max a (tyalign e)) l
              | (_, None) :: l => unial a l end.
Fixpoint tupsz sz l := match l with
                | [] => sz | x :: l => tupsz (add64 (alignto sz x) (tysize x)) l end.
Fixpoint strsz sz (l : list (string * ty)) := match l with
                | [] => sz | (_, x) :: l => strsz (add64 (alignto sz x) (tysize x)) l end.
Fixpoint unisz sz (l : list (string * option ty)) := match l with
              | [] => sz
              | (_, Some e) :: l => unisz (N.max sz (add64 (tysize e) Wordsz)) l
              | (_, None) :: l => unisz sz l end.

Lemma maxlist_1 l : 1 <= maxlist l.
Proof. induction l; cbn [maxlist fold_right]; [lia|]. unfold maxlist in IHl. lia. Qed.

Lemma tupal_spec ts a : Forall (fun t => tyalign t = alignment t) ts -> 1 <= a ->
  tupal a ts = N.max a (maxlist (map alignment ts)).
Proof.
  intros H. revert a. induction H as [|x l Hx Hl IH]; intros a Ha; cbn [tupal map maxlist fold_right]; [lia|].
  rewrite IH by lia. rewrite Hx. unfold maxlist. lia.
Qed.
Lemma stral_spec ms a : Forall (fun m => tyalign (snd m) = alignment (snd m)) ms -> 1 <= a ->
  stral a ms = N.max a (maxlist (map (fun m => alignment (snd m)) ms)).
Proof.
  intros H. revert a. induction H as [|[n x] l Hx Hl IH]; intros a Ha; cbn [stral map maxlist fold_right snd] in *; [lia|].
  rewrite IH by lia. rewrite Hx. unfold maxlist. lia.
Qed.
Definition ucal (c : string * option ty) := match snd c with Some e => alignment e | None => 1 end.
Lemma unial_spec cs a :
  Forall (fun c => match snd c with Some e => tyalign e = alignment e | None => True end) cs -> 1 <= a ->
  unial a cs = N.max a (maxlist (map ucal cs)).
Proof.
  intros H. revert a. induction H as [|[n [x|]] l Hx Hl IH]; intros a Ha; cbn [unial map maxlist fold_right snd ucal] in *; [lia| |].
  - rewrite IH by lia. rewrite Hx. unfold maxlist. lia.
  - rewrite IH by lia. unfold maxlist. pose proof (maxlist_1 (map ucal l)). unfold maxlist in *. lia.
Qed.

Lemma p2_le a : p2 a -> a <= 8. Proof. unfold p2. lia. Qed.

Lemma tyalign_spec t : tyalign t = alignment t.
Proof.
  induction t using ty_ind'; try reflexivity; auto.
  - destruct p; reflexivity.
  - cbn [tyalign alignment]. rewrite IHt. pose proof (p2_le _ (alignment_p2 t)). unfold Ptrsz. lia.
  - change (tyalign (Ttuple ts)) with (N.min (tupal 1 ts) Ptrsz). rewrite tupal_spec by (auto; lia).
    pose proof (p2_le _ (alignment_p2 (Ttuple ts))). pose proof (maxlist_1 (map alignment ts)). cbn [alignment] in *. unfold Ptrsz. lia.
  - change (tyalign (Tstruct ms)) with (N.min (stral 1 ms) Ptrsz). rewrite stral_spec by (auto; lia).
    pose proof (p2_le _ (alignment_p2 (Tstruct ms))). cbn [alignment] in *.
    pose proof (maxlist_1 (map (fun m => alignment (snd m)) ms)). unfold Ptrsz. lia.
  - change (tyalign (Tunion cs)) with (N.min (unial 4 cs) Ptrsz). rewrite unial_spec by (auto; lia).
    pose proof (p2_le _ (alignment_p2 (Tunion cs))). cbn [alignment] in *.
    change (map (fun c : string * option ty => match snd c with Some e => alignment e | None => 1 end) cs) with (map ucal cs) in *.
    unfold Ptrsz. lia.
Qed.

Lemma alignto_spec n t : roundup n (alignment t) < W64 -> alignto n t = roundup n (alignment t).
Proof. intros H. unfold alignto. rewrite tyalign_spec. apply align_roundup; auto. apply alignment_p2. Qed.

(* --- sizes are multiples of alignments --- *)
Lemma extent_div t : N.divide (alignment t) (extent t).
Proof.
  induction t using ty_ind'; cbn [alignment extent]; auto using roundup_div.
  - destruct p; cbn; first [now exists 0|now exists 1].
  - now exists 1.
  - now exists 2.
  - now exists 1.
  - now exists 2.
  - destruct n; [|apply N.divide_0_r]. apply N.divide_mul_r; auto.
Qed.

(* --- tysize --- *)
Definition tupext (o : N) (x : ty) : N := roundup o (alignment x) + extent x.
Definition strext (o : N) (m : string * ty) : N := roundup o (alignment (snd m)) + extent (snd m).
Definition uniext (m : N) (c : string * option ty) : N :=
  N.max m match snd c with Some e => roundup 4 (alignment e) + extent e | None => 0 end.

Lemma tupext_ge o x : o + extent x <= tupext o x.
Proof. unfold tupext. pose proof (roundup_ge o _ (alignment_pos x)). lia. Qed.
Lemma fold_tupext_ge ts o : o <= fold_left tupext ts o.
Proof.
  revert o; induction ts as [|x l IH]; intros o; cbn [fold_left]; [lia|].
  specialize (IH (tupext o x)). pose proof (tupext_ge o x). lia.
Qed.
Lemma fold_strext ms o : fold_left strext ms o = fold_left tupext (map snd ms) o.
Proof. revert o; induction ms as [|m l IH]; intros o; cbn [fold_left map]; auto. Qed.
Lemma strsz_tupsz ms o : strsz o ms = tupsz o (map snd ms).
Proof. revert o; induction ms as [|[n x] l IH]; intros o; cbn [strsz tupsz map snd]; auto. Qed.

Definition sized (t : ty) : Prop := extent t < W64 -> tysize t = extent t.

Lemma add64_small a b : a + b < W64 -> add64 a b = a + b.
Proof. intros H. unfold add64. now apply N.mod_small. Qed.

Lemma tupstep o x : sized x -> tupext o x < W64 -> add64 (alignto o x) (tysize x) = tupext o x.
Proof.
  intros S H. unfold tupext in *. rewrite alignto_spec by lia. rewrite S by lia. apply add64_small; lia.
Qed.

Lemma tupsz_spec ts o : Forall sized ts -> fold_left tupext ts o < W64 -> tupsz o ts = fold_left tupext ts o.
Proof.
  intros F. revert o. induction F as [|x l Hx Hl IH]; intros o H; cbn [fold_left tupsz] in *; [reflexivity|].
  pose proof (fold_tupext_ge l (tupext o x)). rewrite tupstep by (auto; lia). apply IH. lia.
Qed.

Lemma uniext_ge cs m : m <= fold_left uniext cs m.
Proof.
  revert m; induction cs as [|c l IH]; intros m; cbn [fold_left]; [lia|].
  specialize (IH (uniext m c)). unfold uniext in *. lia.
Qed.

(* the code adds 4 to the size of each payload and rounds at the end *)
Definition unicode (m : N) (c : string * option ty) : N :=
  match snd c with Some e => N.max m (extent e + 4) | None => m end.
Lemma payload_off a : p2 a -> roundup 4 a = N.max 4 a.
Proof. intros [->|[->|[->| ->]]]; reflexivity. Qed.

Lemma unicode_round cs A m m' : p2 A -> 4 <= A ->
  Forall (fun c => match snd c with Some e => alignment e <= A | None => True end) cs ->
  roundup m A = roundup m' A ->
  roundup (fold_left unicode cs m) A = roundup (fold_left uniext cs m') A.
Proof.
  intros PA A4 F. revert m m'. induction F as [|[c [e|]] l Hx Hl IH]; intros m m' E; cbn [fold_left]; auto.
  - apply IH. unfold unicode, uniext. cbn [snd] in *.
    assert (A <> 0) as Az by lia. rewrite !roundup_max by auto. rewrite E. f_equal.
    rewrite payload_off by apply alignment_p2.
    destruct (N.le_gt_cases (alignment e) 4) as [L|L].
    + rewrite N.max_l by auto. f_equal. lia.
    + assert (alignment e = 8) as E8 by (destruct (alignment_p2 e) as [H|[H|[H|H]]]; lia).
      assert (A = 8) as -> by (destruct PA as [H|[H|[H|H]]]; lia).
      pose proof (extent_div e) as D. rewrite E8 in *.
      rewrite (N.add_comm (extent e) 4), !roundup_add by (auto; discriminate). reflexivity.
  - apply IH. unfold unicode, uniext. cbn [snd]. now rewrite N.max_l by lia.
Qed.

Lemma unisz_spec cs m : Forall (fun c => match snd c with Some e => sized e | None => True end) cs ->
  fold_left unicode cs m < W64 -> unisz m cs = fold_left unicode cs m.
Proof.
  intros F. revert m. induction F as [|[c [e|]] l Hx Hl IH]; intros m H; cbn [fold_left unisz snd] in *; auto.
  assert (forall l m, m <= fold_left unicode l m) as G.
  { clear. induction l as [|[c [e|]] l IH]; intros m; cbn [fold_left]; [lia| |]; unfold unicode at 2; cbn [snd]; auto.
    pose proof (IH (N.max m (extent e + 4))). lia. }
  pose proof (G l (unicode m (c, Some e))) as G'. unfold unicode at 1 in G'. cbn [snd] in G'.
  rewrite Hx by lia. unfold Wordsz. rewrite add64_small by lia. rewrite IH; [reflexivity|exact H].
Qed.

Lemma tysize_spec t : sized t.
Proof.
  induction t using ty_ind'; unfold sized; try (intros; reflexivity); auto.
  - intros _. destruct p; reflexivity.
  - destruct n as [n|]; cbn [extent tysize]; [|reflexivity]. intros H. unfold mul64.
    destruct (N.eq_dec n 0) as [->|Hn]; [reflexivity|].
    assert (extent t <= n * extent t) by nia. rewrite IHt by lia. apply N.mod_small; lia.
  - change (tysize (Ttuple ts)) with (alignto (tupsz 0 ts) (Ttuple ts)). cbn [extent]. change (fun o x => roundup o (alignment x) + extent x) with tupext.
    intros L.
    pose proof (roundup_ge (fold_left tupext ts 0) _ (alignment_pos (Ttuple ts))).
    rewrite tupsz_spec by (auto; lia). apply alignto_spec. exact L.
  - change (tysize (Tstruct ms)) with (alignto (strsz 0 ms) (Tstruct ms)). cbn [extent]. change (fun o m => roundup o (alignment (snd m)) + extent (snd m)) with strext.
    intros L. rewrite fold_strext, strsz_tupsz in *.
    pose proof (roundup_ge (fold_left tupext (map snd ms) 0) _ (alignment_pos (Tstruct ms))).
    rewrite tupsz_spec; [apply alignto_spec; exact L| |lia]. apply Forall_map. exact H.
  - change (tysize (Tunion cs)) with (align (unisz Wordsz cs) (tyalign (Tunion cs))). cbn [extent].
    change (fun m c => N.max m match snd c with Some e => roundup 4 (alignment e) + extent e | None => 0 end) with uniext.
    intros L.
    pose proof (alignment_pos (Tunion cs)) as Ap. pose proof (alignment_p2 (Tunion cs)) as A2.
    assert (4 <= alignment (Tunion cs)) as A4 by (cbn [alignment]; lia).
    assert (Forall (fun c => match snd c with Some e => alignment e <= alignment (Tunion cs) | None => True end) cs) as FA.
    { apply Forall_forall. intros [c [e|]] Hin; cbn [snd]; auto. cbn [alignment].
      pose proof (maxlist_ge (map ucal cs) (alignment e)) as M. specialize (M ltac:(apply in_map_iff; exists (c, Some e); auto)).
      change (map (fun c : string * option ty => match snd c with Some e => alignment e | None => 1 end) cs) with (map ucal cs). lia. }
    pose proof (unicode_round cs _ 4 4 A2 A4 FA eq_refl) as E.
    rewrite <- E in L |- *. pose proof (roundup_ge (fold_left unicode cs 4) _ Ap).
    rewrite unisz_spec by (unfold Wordsz; auto; lia). change Wordsz with 4. rewrite tyalign_spec. now apply align_roundup.
Qed.

Lemma tysize_extent t : extent t < W64 -> tysize t = extent t. Proof. apply tysize_spec. Qed.

(* the default case of tyalign *)
Lemma default_align t : match tybase t with
  | Tprim _ | Tptr _ | Tcode | Tfunc => tyalign t = N.min (N.max 1 (tysize t)) Ptrsz
  | _ => True end.
Proof. induction t using ty_ind'; cbn [tybase]; auto. Qed.

(* --- offsets --- *)
(* places of consecutive parts starting at o *)
Fixpoint places (o : N) (ts : list ty) : list N :=
  match ts with
  | [] => []
  | x :: ts => roundup o (alignment x) :: places (tupext o x) ts
  end.

Lemma places_length ts o : length (places o ts) = length ts.
Proof. revert o; induction ts; intros o; cbn; auto. Qed.

Lemma places_at ts o i t : nth_error ts i = Some t ->
  exists p, nth_error (places o ts) i = Some p /\ N.divide (alignment t) p /\ o <= p /\
    p + extent t <= fold_left tupext ts o.
Proof.
  revert o i; induction ts as [|x l IH]; intros o [|i] H; cbn [nth_error places] in *; try discriminate.
  - injection H as <-. eexists; split; [reflexivity|]. split; [apply roundup_div|].
    split; [apply roundup_ge, alignment_pos|]. cbn [fold_left]. apply fold_tupext_ge.
  - destruct (IH (tupext o x) i H) as (p & E & D & G & L). exists p. repeat split; auto.
    pose proof (tupext_ge o x). lia.
Qed.

Lemma places_order ts o i j t u : (i < j)%nat -> nth_error ts i = Some t -> nth_error ts j = Some u ->
  exists p q, nth_error (places o ts) i = Some p /\ nth_error (places o ts) j = Some q /\ p + extent t <= q.
Proof.
  revert o i j; induction ts as [|x l IH]; intros o [|i] [|j] L Hi Hj; cbn [nth_error places] in *; try discriminate; try lia.
  - injection Hi as <-. destruct (places_at l (tupext o x) j u Hj) as (q & E & _ & G & _).
    do 2 eexists; split; [reflexivity|]. split; [exact E|]. unfold tupext in G. exact G.
  - apply IH; auto. lia.
Qed.

Lemma simptup_spec ts o : fold_left tupext ts o < W64 -> simptup o ts = places o ts.
Proof.
  revert o; induction ts as [|x l IH]; intros o H; cbn [simptup places fold_left] in *; auto.
  pose proof (fold_tupext_ge l (tupext o x)) as G.
  pose proof (tysize_spec x) as Sx. rewrite tupstep by (auto; lia).
  unfold tupext in G at 1. rewrite alignto_spec by lia. f_equal. apply IH. exact H.
Qed.
Lemma envstore_simptup ts o : envstore o ts = simptup o ts.
Proof. revert o; induction ts as [|x l IH]; intros o; cbn [simptup envstore]; auto. Qed.
Lemma envload_simptup ts o : envload o ts = simptup o ts.
Proof. revert o; induction ts as [|x l IH]; intros o; cbn [simptup envload]; auto. Qed.

Lemma tupgetoff_spec ts o i : tupgetoff o ts i = nth_error (simptup o ts) i.
Proof. revert o i; induction ts as [|x l IH]; intros o [|i]; cbn [tupgetoff simptup nth_error]; auto. Qed.

Lemma tupoff_spec ts o i : fold_left tupext ts o < W64 ->
  (match ts with x :: _ => roundup o (alignment x) = o | [] => True end) ->
  tupoff o ts i = nth_error (places o ts) i.
Proof.
  revert o i; induction ts as [|x l IH]; intros o [|i] B H; cbn [tupoff places nth_error fold_left] in *; auto.
  - now rewrite H.
  - pose proof (fold_tupext_ge l (tupext o x)) as G.
    destruct l as [|y l]; [destruct i; reflexivity|].
    assert (roundup o (alignment x) + extent x = tupext o x) as E by reflexivity. rewrite H in E.
    rewrite tysize_extent, add64_small, E by lia.
    cbn [fold_left] in B. pose proof (fold_tupext_ge l (tupext (tupext o x) y)) as G2.
    unfold tupext at 1 in G2. rewrite alignto_spec by lia.
    set (m := tupext o x) in *.
    assert (roundup (roundup m (alignment y)) (alignment y) = roundup m (alignment y)) as I.
    { apply roundup_id; [apply alignment_pos|apply roundup_div]. }
    assert (tupext (roundup m (alignment y)) y = tupext m y) as I2 by (unfold tupext; now rewrite I).
    rewrite IH; cbn [fold_left places]; rewrite ?I, ?I2; auto.
Qed.

Lemma structoff_spec ms o n u i : fold_left strext ms o < W64 -> NoDup (map fst ms) ->
  nth_error ms i = Some (n, u) -> structoff o ms n = nth_error (places o (map snd ms)) i.
Proof.
  revert o i; induction ms as [|[m x] l IH]; intros o [|i] B ND H; cbn [structoff places nth_error fold_left map fst snd] in *; try discriminate.
  - injection H as -> ->. rewrite String.eqb_refl.
    pose proof (fold_tupext_ge (map snd l) (strext o (n, u))) as G. rewrite <- fold_strext in G.
    unfold strext in G at 1; cbn [snd] in G. rewrite alignto_spec by lia. reflexivity.
  - apply NoDup_cons_iff in ND as [N1 N2].
    destruct (String.eqb_spec n m) as [->|Ne].
    { exfalso. apply N1. apply nth_error_In in H. apply (in_map fst) in H. exact H. }
    pose proof (fold_tupext_ge (map snd l) (strext o (m, x))) as G. rewrite <- fold_strext in G.
    pose proof (tysize_spec x) as Sx. change (strext o (m, x)) with (tupext o x) in *.
    rewrite tupstep by (auto; lia). apply IH; auto.
Qed.

(* --- parts --- *)
Lemma tybase_ext t : extent (tybase t) = extent t /\ alignment (tybase t) = alignment t.
Proof. induction t using ty_ind'; cbn [tybase extent alignment]; auto. Qed.

Lemma tyoffset_name heap d m : tyoffset heap (Tname d) m = tyoffset heap d m.
Proof. reflexivity. Qed.
Lemma step_offset_name heap d s : step_offset heap (Tname d) s = step_offset heap d s.
Proof. destruct s; reflexivity. Qed.

Lemma finducon_in cs c e : NoDup (map fst cs) -> In (c, e) cs -> finducon cs c = Some e.
Proof.
  induction cs as [|[d f] l IH]; cbn [map fst finducon In]; [tauto|]. intros ND [E|H].
  - injection E as -> ->. now rewrite String.eqb_refl.
  - apply NoDup_cons_iff in ND as [N1 N2]. destruct (String.eqb_spec d c) as [->|Ne]; auto.
    exfalso. apply N1. apply (in_map fst) in H. exact H.
Qed.

Lemma uniext_in cs m c e : In (c, Some e) cs -> roundup 4 (alignment e) + extent e <= fold_left uniext cs m.
Proof.
  revert m; induction cs as [|d l IH]; intros m; cbn [In fold_left]; [tauto|]. intros [->|H].
  - pose proof (uniext_ge l (uniext m (c, Some e))) as G. unfold uniext in G at 1; cbn [snd] in G. lia.
  - auto.
Qed.

Lemma part_ok heap t s u : wf t -> extent t < W64 -> part t s u ->
  exists o, step_offset heap t s = Some o /\ N.divide (alignment u) o /\ o + extent u <= extent t /\
            N.divide (alignment u) (alignment t) /\ wf u.
Proof.
  intros W B P. induction P as [d s u P IH|ms x u H|ts i u H|n e i H|cs c e H]; cbn [wf extent] in *.
  - rewrite step_offset_name. apply IH; auto.
  - destruct W as [ND W]. apply In_nth_error in H as [i H].
    change (fun o m => roundup o (alignment (snd m)) + extent (snd m)) with strext in *.
    pose proof (roundup_ge (fold_left strext ms 0) _ (alignment_pos (Tstruct ms))) as G.
    unfold step_offset, tyoffset; cbn [tybase]. rewrite (structoff_spec ms 0 x u i) by (auto; lia).
    assert (nth_error (map snd ms) i = Some u) as Hi by (rewrite nth_error_map, H; reflexivity).
    destruct (places_at _ 0 i u Hi) as (p & E & D & _ & L). exists p. rewrite <- fold_strext in L.
    repeat split; auto; [lia| |].
    + apply p2_max_div; try apply alignment_p2. cbn [alignment]. apply maxlist_ge.
      apply nth_error_In in H. apply in_map_iff. now exists (x, u).
    + apply nth_error_In in H. clear -W H. induction ms as [|a l IH]; cbn in *; [tauto|].
      destruct W as [W1 W2], H as [->|H]; auto.
  - change (fun o x => roundup o (alignment x) + extent x) with tupext in *.
    pose proof (roundup_ge (fold_left tupext ts 0) _ (alignment_pos (Ttuple ts))) as G.
    unfold step_offset, tyoffset; cbn [tybase]. rewrite tupoff_spec; [|lia|].
    2: { destruct ts; auto. apply roundup_id; [apply alignment_pos|apply N.divide_0_r]. }
    destruct (places_at _ 0 i u H) as (p & E & D & _ & L). exists p.
    repeat split; auto; [lia| |].
    + apply p2_max_div; try apply alignment_p2. cbn [alignment]. apply maxlist_ge.
      apply in_map. eapply nth_error_In; eauto.
    + apply nth_error_In in H. clear -W H. induction ts as [|a l IH]; cbn in *; [tauto|].
      destruct W as [W1 W2], H as [->|H]; auto.
  - exists (idxoff e i). unfold step_offset; cbn [tybase]. split; [reflexivity|].
    unfold idxoff, mul64. assert (extent e <= n * extent e) by nia.
    rewrite tysize_extent by lia. assert (i * extent e + extent e <= n * extent e) by nia.
    rewrite N.mod_small by lia.
    repeat split; auto; [apply N.divide_mul_r, extent_div|cbn [alignment]; apply N.divide_refl].
  - destruct W as [ND W]. unfold step_offset; cbn [tybase]. rewrite (finducon_in _ _ _ ND H).
    change (fun m c => N.max m match snd c with Some e => roundup 4 (alignment e) + extent e | None => 0 end) with uniext in *.
    pose proof (roundup_ge (fold_left uniext cs 4) _ (alignment_pos (Tunion cs))) as G.
    pose proof (uniext_in cs 4 c e H) as G2.
    exists (ugetoff e). split; [reflexivity|]. unfold ugetoff, Wordsz. rewrite alignto_spec by lia.
    repeat split; auto; [apply roundup_div|lia| |].
    + apply p2_max_div; try apply alignment_p2. cbn [alignment].
      change (map (fun c : string * option ty => match snd c with Some e => alignment e | None => 1 end) cs) with (map ucal cs).
      pose proof (maxlist_ge (map ucal cs) (alignment e)) as M.
      specialize (M ltac:(apply in_map_iff; exists (c, Some e); auto)). lia.
    + clear -W H. induction cs as [|a l IH]; cbn in *; [tauto|].
      destruct W as [W1 W2], H as [->|H]; auto.
Qed.

Lemma part_fun t s u u' : wf t -> part t s u -> part t s u' -> u = u'.
Proof.
  intros W P Q. induction P as [d s u P IH|ms x u H|ts i u H|n e i H|cs c e H]; inversion Q; subst; cbn [wf] in *; auto; try congruence.
  - destruct W as [ND _].
    clear - ND H H2. induction ms as [|[a b] l IH]; cbn [In map fst] in *; [tauto|].
    apply NoDup_cons_iff in ND as [N1 N2].
    destruct H as [E|H], H2 as [F|G]; try congruence; auto.
    + injection E as -> ->. exfalso. apply N1. apply (in_map fst) in G. exact G.
    + injection F as -> ->. exfalso. apply N1. apply (in_map fst) in H. exact H.
  - destruct W as [ND _]. pose proof (finducon_in _ _ _ ND H). pose proof (finducon_in _ _ _ ND H2). congruence.
Qed.

Lemma parts_ok heap t p u : wf t -> extent t < W64 -> parts t p u ->
  exists o, path_offset heap t p u o /\ N.divide (alignment u) o /\ o + extent u <= extent t /\
            N.divide (alignment u) (alignment t).
Proof.
  intros W B P. induction P as [t|t s u p v S P IH].
  - exists 0. split; [constructor|]. split; [apply N.divide_0_r|]. split; [lia|apply N.divide_refl].
  - destruct (part_ok heap t s u W B S) as (o & E & D & L & DA & Wu).
    destruct IH as (o' & PO & D' & L' & DA'); [auto|lia|].
    exists (add64 o o'). split; [econstructor; eauto|]. rewrite add64_small by lia.
    split; [|split; [lia|]].
    + apply N.divide_add_r; auto. apply N.divide_trans with (alignment u); auto.
    + apply N.divide_trans with (alignment u); auto.
Qed.

Lemma path_offset_fun heap t p u o u' o' : wf t -> extent t < W64 ->
  path_offset heap t p u o -> path_offset heap t p u' o' -> u = u' /\ o = o'.
Proof.
  intros W B P. revert u' o'. induction P as [t|t s u p v o1 o2 S E P IH]; intros u' o' Q; inversion Q; subst; auto.
  match goal with H1 : part t s ?x, H2 : step_offset heap t s = Some ?y |- _ =>
    pose proof (part_fun t s u x W S H1); subst x; assert (o1 = y) by congruence; subst y end.
  destruct (part_ok heap t s u W B S) as (o & _ & _ & L & _ & Wu).
  match goal with H : path_offset heap u p ?a ?b |- _ => destruct (IH Wu ltac:(lia) _ _ H) as [-> ->] end. auto.
Qed.

Lemma path_offset_parts heap t p u o : path_offset heap t p u o -> parts t p u.
Proof. induction 1; econstructor; eauto. Qed.

Lemma path_inside heap t p u o : wf t -> extent t < W64 -> path_offset heap t p u o ->
  N.divide (alignment u) o /\ o + extent u <= extent t /\ N.divide (alignment u) (alignment t).
Proof.
  intros W B P. destruct (parts_ok heap t p u W B (path_offset_parts _ _ _ _ _ P)) as (o' & P' & H).
  destruct (path_offset_fun heap t p u o u o' W B P P') as [_ <-]. exact H.
Qed.

(* sibling parts do not overlap *)
Definition siblings (s s' : step) : Prop :=
  match s, s' with
  | Sfield x, Sfield y => x <> y
  | Selt i, Selt j => i <> j
  | Sidx i, Sidx j => i <> j
  | _, _ => False
  end.
Lemma siblings_ok heap t s s' u u' o o' : wf t -> extent t < W64 -> siblings s s' ->
  part t s u -> part t s' u' -> step_offset heap t s = Some o -> step_offset heap t s' = Some o' ->
  o + extent u <= o' \/ o' + extent u' <= o.
Proof.
  intros W B Sb P. revert u' o o'. induction P as [d s u P IH|ms x u H|ts i u H|n e i H|cs c e H]; intros u' o o' P' E E'; cbn [wf extent] in *.
  - rewrite step_offset_name in *. inversion P'; subst. eapply IH; eauto.
  - destruct s'; try contradiction. inversion P' as [|ms' y v H'| | |]; subst. cbn [siblings] in Sb.
    destruct W as [ND _]. apply In_nth_error in H as [i H], H' as [j H'].
    change (fun o m => roundup o (alignment (snd m)) + extent (snd m)) with strext in *.
    pose proof (roundup_ge (fold_left strext ms 0) _ (alignment_pos (Tstruct ms))) as G.
    unfold step_offset, tyoffset in *; cbn [tybase] in *.
    rewrite (structoff_spec ms 0 x u i) in E by (auto; lia). rewrite (structoff_spec ms 0 name u' j) in E' by (auto; lia).
    assert (nth_error (map snd ms) i = Some u) as Hi by (rewrite nth_error_map, H; reflexivity).
    assert (nth_error (map snd ms) j = Some u') as Hj by (rewrite nth_error_map, H'; reflexivity).
    destruct (Nat.lt_trichotomy i j) as [L|[->|L]]; [| congruence |].
    + destruct (places_order _ 0 i j _ _ L Hi Hj) as (p & q & Ep & Eq & Lpq). left. congruence.
    + destruct (places_order _ 0 j i _ _ L Hj Hi) as (p & q & Ep & Eq & Lpq). right. congruence.
  - destruct s'; try contradiction. inversion P' as [| |ts' j v H'| |]; subst. cbn [siblings] in Sb.
    change (fun o x => roundup o (alignment x) + extent x) with tupext in *.
    pose proof (roundup_ge (fold_left tupext ts 0) _ (alignment_pos (Ttuple ts))) as G.
    unfold step_offset, tyoffset in *; cbn [tybase] in *.
    assert (match ts with x :: _ => roundup 0 (alignment x) = 0 | [] => True end) as Z0
      by (destruct ts; auto; apply roundup_id; [apply alignment_pos|apply N.divide_0_r]).
    rewrite tupoff_spec in E, E' by (auto; lia).
    destruct (Nat.lt_trichotomy i i0) as [L|[->|L]]; [| congruence |].
    + destruct (places_order _ 0 i i0 _ _ L H H') as (p & q & Ep & Eq & Lpq). left. congruence.
    + destruct (places_order _ 0 i0 i _ _ L H' H) as (p & q & Ep & Eq & Lpq). right. congruence.
  - destruct s'; try contradiction. inversion P' as [| | |n' e' j H'|]; subst. cbn [siblings] in Sb.
    unfold step_offset, idxoff, mul64 in *; cbn [tybase] in *. injection E as <-. injection E' as <-.
    assert (extent u' <= n * extent u') by nia. rewrite tysize_extent by lia.
    assert (i * extent u' + extent u' <= n * extent u') by nia.
    assert (i0 * extent u' + extent u' <= n * extent u') by nia.
    rewrite !N.mod_small by lia. nia.
  - destruct s'; contradiction.
Qed.

Lemma apart_ok heap t p q u v o o' : wf t -> extent t < W64 -> apart p q ->
  path_offset heap t p u o -> path_offset heap t q v o' ->
  o + extent u <= o' \/ o' + extent v <= o.
Proof.
  intros W B A. revert t u v o o' W B.
  assert (forall s s' p q t u v o o', siblings s s' -> wf t -> extent t < W64 ->
    path_offset heap t (s :: p) u o -> path_offset heap t (s' :: q) v o' ->
    o + extent u <= o' \/ o' + extent v <= o) as Top.
  { clear. intros s s' p q t u v o o' Sb W B P Q. inversion P as [|? ? u1 ? ? o1 o2 S1 E1 P1]; subst.
    inversion Q as [|? ? u2 ? ? o3 o4 S2 E2 P2]; subst.
    destruct (siblings_ok heap t s s' u1 u2 o1 o3 W B Sb S1 S2 E1 E2) as [L|L];
    destruct (part_ok heap t s u1 W B S1) as (o & F & _ & L1 & _ & W1);
    destruct (part_ok heap t s' u2 W B S2) as (o' & F' & _ & L2 & _ & W2);
    assert (o = o1) by congruence; assert (o' = o3) by congruence; subst;
    pose proof (path_inside heap u1 p u o2 W1 ltac:(lia) P1) as (_ & I1 & _);
    pose proof (path_inside heap u2 q v o4 W2 ltac:(lia) P2) as (_ & I2 & _);
    rewrite !add64_small by lia; lia. }
  induction A as [x y p q N|i j p q N|i j p q N|s p q A IH]; intros t u v o o' W B P Q.
  - eapply (Top (Sfield x) (Sfield y)); eauto.
  - eapply (Top (Selt i) (Selt j)); eauto.
  - eapply (Top (Sidx i) (Sidx j)); eauto.
  - inversion P as [|? ? u1 ? ? o1 o2 S1 E1 P1]; subst. inversion Q as [|? ? u2 ? ? o3 o4 S2 E2 P2]; subst.
    pose proof (part_fun t s u1 u2 W S1 S2); subst u2. assert (o1 = o3) by congruence; subst o3.
    destruct (part_ok heap t s u1 W B S1) as (o & F & _ & L1 & _ & W1). assert (o = o1) by congruence; subst.
    pose proof (path_inside heap u1 p u o2 W1 ltac:(lia) P1) as (_ & I1 & _);
    pose proof (path_inside heap u1 q v o4 W1 ltac:(lia) P2) as (_ & I2 & _).
    pose proof (IH u1 u v o2 o4 W1 ltac:(lia) P1 P2).
    rewrite !add64_small by lia. lia.
Qed.

(* --- closure environments --- *)
Lemma envsize_spec env o : fold_left tupext env o + 8 < W64 -> envsize o env = fold_left tupext env o.
Proof.
  revert o; induction env as [|x l IH]; intros o H; cbn [envsize fold_left] in *; auto.
  pose proof (fold_tupext_ge l (tupext o x)) as G. pose proof (tupext_ge o x) as G2.
  rewrite tysize_extent, add64_small by lia.
  rewrite <- IH by exact H. f_equal. unfold tupext.
  pose proof (roundup_lt (o + extent x) _ (alignment_pos x)). pose proof (p2_le _ (alignment_p2 x)).
  rewrite alignto_spec by lia. apply roundup_add; [apply alignment_pos|apply extent_div].
Qed.
