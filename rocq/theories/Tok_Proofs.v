From Verif Require Import Base Utf_Spec Tok_Model Tok_Spec.
From Coq Require Import ZifyBool ZifyN ZifyNat Lia.
Local Open Scope N_scope.
Local Open Scope list_scope.

Ltac eqb := repeat match goal with
  | H : (_ =? _) = true |- _ => apply N.eqb_eq in H
  | H : (_ =? _) = false |- _ => apply N.eqb_neq in H
  end.

Lemma newlines_app a b : newlines (a ++ b) = newlines a + newlines b.
Proof. induction a as [|c a IH]; cbn [app newlines]; [lia|]. rewrite IH. lia. Qed.

(* ---- comments ---- *)
Fixpoint closes (d : N) (ms : list mark) : Prop :=
  match ms with
  | [] => False
  | Copen :: ms => closes (d + 1) ms
  | Cbyte _ :: ms => closes d ms
  | Cclose :: ms => if d =? 1 then ms = [] else closes (d - 1) ms
  end.

Lemma not_pair c s : c <> 47 -> c <> 42 -> ~ pair c s.
Proof. intros A B (d & s' & _ & [[-> _]|[-> _]]); congruence. Qed.

Lemma eatcomment_sound n : forall d line s r l, (length s <= n)%nat -> 0 < d -> eatcomment d line s = Ok (r, l) ->
  exists c ms, s = c ++ r /\ reads c ms /\ closes d ms /\ l = line + newlines c.
Proof.
  induction n as [|n IH]; intros d line s r l L D E.
  - destruct s; [discriminate|cbn in L; lia].
  - destruct s as [|c s1]; [discriminate|]. cbn [length] in L. cbn [eatcomment] in E.
    assert (D0 : (d =? 0) = false) by (apply N.eqb_neq; lia). rewrite D0 in E.
    destruct (c =? 255) eqn:C255; [discriminate|].
    assert (BYTE : forall line', ~ pair c s1 -> eatcomment d line' s1 = Ok (r, l) -> line' = line + newlines [c] ->
              exists c0 ms, c :: s1 = c0 ++ r /\ reads c0 ms /\ closes d ms /\ l = line + newlines c0).
    { intros line' P E' LE. destruct (IH d line' s1 r l ltac:(lia) D E') as (c' & ms & -> & R & CL & ->).
      exists (c :: c'), (Cbyte c :: ms). eqb. repeat split; auto.
      - constructor; auto. intros (x & s' & -> & Q). apply P. exists x, (s' ++ r). split; auto.
      - subst line'. cbn [newlines]. lia. }
    destruct (c =? 47) eqn:C47.
    { eqb; subst c. destruct s1 as [|x s2].
      - apply (BYTE line); auto; [intros (? & ? & ? & _); discriminate|cbn; lia].
      - destruct (x =? 42) eqn:X.
        + eqb; subst x. cbn [length] in L.
          destruct (IH (d + 1) line s2 r l ltac:(lia) ltac:(lia) E) as (c' & ms & -> & R & CL & ->).
          exists (47 :: 42 :: c'), (Copen :: ms). repeat split; auto. constructor; auto.
        + eqb. apply (BYTE line); auto; [intros (? & ? & H & [[_ Q]|[Q _]]); [injection H; congruence|discriminate]|cbn; lia]. }
    destruct (c =? 42) eqn:C42.
    { eqb; subst c. destruct s1 as [|x s2].
      - apply (BYTE line); auto; [intros (? & ? & ? & _); discriminate|cbn; lia].
      - destruct (x =? 47) eqn:X.
        + eqb; subst x. cbn [length] in L. destruct (d =? 1) eqn:D1.
          * injection E as <- <-. exists [42; 47], [Cclose]. repeat split; auto; [repeat constructor|cbn; rewrite D1; reflexivity|cbn; lia].
          * eqb. destruct (IH (d - 1) line s2 r l ltac:(lia) ltac:(lia) E) as (c' & ms & -> & R & CL & ->).
            exists (42 :: 47 :: c'), (Cclose :: ms). repeat split; auto; [constructor; auto|].
            cbn. destruct (N.eqb_spec d 1); [lia|auto].
        + eqb. apply (BYTE line); auto; [intros (? & ? & H & [[Q _]|[_ Q]]); [discriminate|injection H; congruence]|cbn; lia]. }
    eqb. apply (BYTE (if c =? 10 then line + 1 else line)); auto; [apply not_pair; auto|].
    cbn [newlines]. destruct (c =? 10); lia.
Qed.

Lemma eatcomment_complete c ms : reads c ms -> forall d line r, 0 < d -> closes d ms ->
  eatcomment d line (c ++ r) = Ok (r, line + newlines c).
Proof.
  induction 1 as [|s ms R IH|s ms R IH|x s ms P X R IH]; intros d line r D CL.
  - destruct CL.
  - cbn [closes] in CL. cbn [app]. cbn [eatcomment]. cbn [N.eqb Pos.eqb]. rewrite IH; [|lia|auto]. cbn [newlines]. cbn [N.eqb Pos.eqb]. f_equal; f_equal; lia.
  - cbn [closes] in CL. cbn [app eatcomment]. cbn [N.eqb Pos.eqb]. destruct (d =? 1) eqn:D1.
    + subst ms. inversion R; subst. cbn. f_equal; f_equal; lia.
    + eqb. rewrite IH; [|lia|auto]. cbn [newlines N.eqb Pos.eqb]. f_equal; f_equal; lia.
  - cbn [closes] in CL. cbn [app eatcomment].
    assert (D0 : (d =? 0) = false) by (apply N.eqb_neq; lia). rewrite D0.
    apply N.eqb_neq in X as X'; rewrite X'.
    assert (NE : s <> []) by (intros ->; inversion R; subst; destruct CL).
    destruct s as [|y s]; [congruence|]. cbn [app].
    destruct (x =? 47) eqn:C47; [|destruct (x =? 42) eqn:C42].
    + destruct (y =? 42) eqn:Y; [exfalso; eqb; apply P; exists y, s; auto|].
      change (y :: s ++ r) with ((y :: s) ++ r). rewrite IH; auto. f_equal; f_equal. cbn [newlines]. eqb; subst x. cbn [N.eqb Pos.eqb]. lia.
    + destruct (y =? 47) eqn:Y; [exfalso; eqb; apply P; exists y, s; auto|].
      change (y :: s ++ r) with ((y :: s) ++ r). rewrite IH; auto. f_equal; f_equal. cbn [newlines]. eqb; subst x. cbn [N.eqb Pos.eqb]. lia.
    + change (y :: s ++ r) with ((y :: s) ++ r). rewrite IH; auto. f_equal; f_equal. cbn [newlines]. destruct (x =? 10); lia.
Qed.

Lemma balanced_closes b : balanced b -> forall d ms, 0 < d -> closes d (b ++ ms) <-> closes d ms.
Proof.
  induction 1 as [|c b B IH|a b A IHa B IHb]; intros d ms D; cbn [app closes]; [tauto|apply IH; lia|].
  rewrite <- app_assoc. cbn [app]. rewrite IHa by lia. cbn [closes].
  destruct (N.eqb_spec (d + 1) 1); [lia|]. rewrite N.add_sub. apply IHb; lia.
Qed.

Lemma closes_split n : forall d ms, (length ms <= n)%nat -> 0 < d -> closes d ms ->
  exists b ms', ms = b ++ Cclose :: ms' /\ balanced b /\ if d =? 1 then ms' = [] else closes (d - 1) ms'.
Proof.
  induction n as [|n IH]; intros d ms L D CL; destruct ms as [|m ms]; try (destruct CL; fail); [cbn in L; lia|].
  cbn [length] in L. destruct m as [| |c]; cbn [closes] in CL.
  - destruct (IH (d + 1) ms ltac:(lia) ltac:(lia) CL) as (a & ms1 & -> & A & CL1).
    destruct (N.eqb_spec (d + 1) 1); [lia|]. rewrite N.add_sub in CL1.
    rewrite app_length in L; cbn [length] in L.
    destruct (IH d ms1 ltac:(lia) D CL1) as (b & ms2 & -> & B & CL2).
    exists (Copen :: a ++ Cclose :: b), ms2. split; [cbn; rewrite <- app_assoc; reflexivity|]. split; [constructor; auto|auto].
  - exists [], ms. repeat split; [constructor|auto].
  - destruct (IH d ms ltac:(lia) D CL) as (b & ms1 & -> & B & CL1).
    exists (Cbyte c :: b), ms1. repeat split; [constructor; auto|auto].
Qed.

Lemma closes_1 ms : closes 1 ms <-> exists b, ms = b ++ [Cclose] /\ balanced b.
Proof.
  split.
  - intros C. destruct (closes_split (length ms) 1 ms (Nat.le_refl _) ltac:(lia) C) as (b & ms' & -> & B & E). cbn in E; subst ms'. eauto.
  - intros (b & -> & B). apply balanced_closes; [auto|lia|]. reflexivity.
Qed.

Lemma eatcomment_iff line s r l : eatcomment 0 line (47 :: 42 :: s) = Ok (r, l) <->
  exists c, 47 :: 42 :: s = c ++ r /\ comment c /\ l = line + newlines c.
Proof.
  change (eatcomment 0 line (47 :: 42 :: s)) with (eatcomment 1 line s). split.
  - intros E. destruct (eatcomment_sound (length s) 1 line s r l (Nat.le_refl _) ltac:(lia) E) as (c & ms & -> & R & CL & ->).
    apply closes_1 in CL as (b & -> & B). exists (47 :: 42 :: c). split; [reflexivity|]. split; [|reflexivity].
    exists b. split; [auto|]. constructor; auto.
  - intros (c & E & (ms & B & R) & ->). inversion R as [|s' ms' R'| |]; subst.
    cbn [app] in E. injection E as ->.
    rewrite (eatcomment_complete _ _ R'); [cbn [newlines N.eqb Pos.eqb]; f_equal; f_equal; lia|lia|].
    apply closes_1; eauto.
Qed.

Lemma eatcomment_never n : forall d line s, (length s <= n)%nat -> eatcomment d line s <> Ub /\ eatcomment d line s <> Fuel.
Proof.
  induction n as [|n IH]; intros d line s L; destruct s as [|c s]; try (split; discriminate); cbn [length] in L; [lia|].
  cbn [eatcomment]. destruct s as [|x s]; cbn [length] in L.
  - repeat match goal with |- context [if ?b then _ else _] => destruct b end; try (split; discriminate); apply IH; cbn; lia.
  - repeat match goal with |- context [if ?b then _ else _] => destruct b end; try (split; discriminate); apply IH; cbn; lia.
Qed.

(* ---- blanks ---- *)
Lemma eatline_spec s : exists t, s = t ++ eatline s /\ ~ In 10 t /\ ~ In 255 t /\
  match eatline s with [] => True | c :: _ => c = 10 \/ c = 255 end.
Proof.
  induction s as [|c s (t & E & A & B & C)]; [exists []; cbn; tauto|].
  cbn [eatline]. destruct ((c =? 255) || (c =? 10)) eqn:X.
  - exists []. cbn. repeat split; auto. lia.
  - exists (c :: t). cbn [app In]. split; [f_equal; exact E|]. repeat split; auto; intros [H|H]; try tauto; lia.
Qed.
Lemma eatline_app t b : ~ In 10 t -> ~ In 255 t -> line_end b -> eatline (t ++ b) = b.
Proof.
  induction t as [|c t IH]; cbn [app In]; intros A B L.
  - destruct b as [|c b]; [reflexivity|]. cbn in L; subst c. reflexivity.
  - cbn [eatline]. destruct (N.eqb_spec c 255); [tauto|]. destruct (N.eqb_spec c 10); [tauto|]. cbn. apply IH; auto.
Qed.
Lemma eatline_len s : (length (eatline s) <= length s)%nat.
Proof. destruct (eatline_spec s) as (t & E & _). rewrite E at 2. rewrite app_length. lia. Qed.

Lemma comment_len c : comment c -> (2 <= length c)%nat.
Proof. intros (ms & _ & R). inversion R; subst. cbn. lia. Qed.
Lemma comment_start c : comment c -> exists s, c = 47 :: 42 :: s.
Proof. intros (ms & _ & R). inversion R; subst. eauto. Qed.

Definition two (a b : N) (s : text) : bool := match s with c :: d :: _ => (c =? a) && (d =? b) | _ => false end.

(* one step of eatspace *)
Lemma eatspace_eq fuel k line s : eatspace (S fuel) k line s =
  match s with
  | [] => Ok (s, line)
  | c :: s1 =>
      if c =? 10 then (if k then eatspace fuel false (line + 1) s1 else Ok (s, line))
      else if c =? 92 then eatspace fuel true line s1
      else if isspace c then eatspace fuel k line s1
      else if two 47 42 s then
        match eatcomment 0 line s with Ok (s, line) => eatspace fuel k line s | r => r end
      else if two 47 47 s then eatspace fuel k line (eatline s)
      else Ok (s, line)
  end.
Proof.
  cbn [eatspace]. destruct s as [|c s1]; [reflexivity|].
  destruct (c =? 10) eqn:C10.
  - eqb; subst c. destruct k; reflexivity.
  - rewrite !andb_false_r. cbn [two].
    destruct (c =? 92); [reflexivity|]. destruct (isspace c); [reflexivity|].
    destruct s1 as [|d s2]; [rewrite !andb_false_r; reflexivity|].
    destruct (c =? 47); reflexivity.
Qed.

Lemma two_true a b s : two a b s = true -> exists r, s = a :: b :: r.
Proof. destruct s as [|c [|d s]]; cbn; try discriminate. intros H. apply andb_prop in H as [A B]. eqb; subst. eauto. Qed.

Lemma eatspace_never n : forall fuel k line s, (length s <= n)%nat -> (length s < fuel)%nat ->
  eatspace fuel k line s <> Ub /\ eatspace fuel k line s <> Fuel.
Proof.
  induction n as [|n IH]; intros fuel k line s L F; (destruct fuel as [|fuel]; [lia|]); rewrite eatspace_eq.
  - destruct s; [split; discriminate|cbn in L; lia].
  - destruct s as [|c s1]; [split; discriminate|]. cbn [length] in L, F.
    destruct (c =? 10); [destruct k; [apply IH; lia|split; discriminate]|].
    destruct (c =? 92); [apply IH; lia|]. destruct (isspace c); [apply IH; lia|].
    destruct (two 47 42 (c :: s1)) eqn:T.
    + apply two_true in T as (r & E). injection E as -> ->.
      destruct (eatcomment_never (length (47 :: 42 :: r)) 0 line _ (Nat.le_refl _)) as [U V].
      destruct (eatcomment 0 line (47 :: 42 :: r)) as [[s' l']| | |] eqn:EC; try congruence; [|split; discriminate].
      apply eatcomment_iff in EC as (c & E & C & _). apply comment_len in C. apply (f_equal (@length N)) in E.
      rewrite app_length in E. cbn [length] in E, L, F. apply IH; lia.
    + destruct (two 47 47 (c :: s1)) eqn:T2; [|split; discriminate].
      apply two_true in T2 as (r & E). injection E as -> ->. cbn [eatline]. cbn [N.eqb Pos.eqb orb].
      pose proof (eatline_len r). cbn [length] in L, F. apply IH; lia.
Qed.

Lemma eatspace_fuel n : forall fuel fuel' k line s, (length s <= n)%nat -> (length s < fuel)%nat -> (length s < fuel')%nat ->
  eatspace fuel k line s = eatspace fuel' k line s.
Proof.
  induction n as [|n IH]; intros fuel fuel' k line s L F F'; (destruct fuel as [|fuel]; [lia|]); (destruct fuel' as [|fuel']; [lia|]); rewrite !eatspace_eq.
  - destruct s; [reflexivity|cbn in L; lia].
  - destruct s as [|c s1]; [reflexivity|]. cbn [length] in L, F, F'.
    destruct (c =? 10); [destruct k; [apply IH; lia|reflexivity]|].
    destruct (c =? 92); [apply IH; lia|]. destruct (isspace c); [apply IH; lia|].
    destruct (two 47 42 (c :: s1)) eqn:T.
    + apply two_true in T as (r & E). injection E as -> ->.
      destruct (eatcomment 0 line (47 :: 42 :: r)) as [[s' l']| | |] eqn:EC; try reflexivity.
      apply eatcomment_iff in EC as (c & E & C & _). apply comment_len in C. apply (f_equal (@length N)) in E.
      rewrite app_length in E. cbn [length] in E, L, F, F'. apply IH; lia.
    + destruct (two 47 47 (c :: s1)) eqn:T2; [|reflexivity].
      apply two_true in T2 as (r & E). injection E as -> ->. cbn [eatline]. cbn [N.eqb Pos.eqb orb].
      pose proof (eatline_len r). cbn [length] in L, F, F'. apply IH; lia.
Qed.

(* whether a token can start with s *)
Definition solid (k : bool) (s : text) : Prop :=
  match s with
  | [] => True
  | c :: s1 => (c = 10 /\ k = false) \/
               (c <> 10 /\ c <> 92 /\ isspace c = false /\ two 47 42 s = false /\ two 47 47 s = false)
  end.

Lemma eatspace_sound n : forall fuel k line s r l, (length s <= n)%nat -> ~ In 255 s -> eatspace fuel k line s = Ok (r, l) ->
  exists b k', s = b ++ r /\ blank k b k' r /\ l = line + newlines b /\ solid k' r.
Proof.
  induction n as [|n IH]; intros fuel k line s r l L NF E; (destruct fuel as [|fuel]; [discriminate|]); rewrite eatspace_eq in E.
  - destruct s; [|cbn in L; lia]. injection E as <- <-. exists [], k. repeat split; [constructor|cbn; lia].
  - destruct s as [|c s1]; [injection E as <- <-; exists [], k; repeat split; [constructor|cbn; lia]|].
    cbn [length] in L. assert (NF1 : ~ In 255 s1) by (intros ?; apply NF; right; auto).
    destruct (c =? 10) eqn:C10; [destruct k|].
    + eqb; subst c. destruct (IH fuel false (line + 1) s1 r l ltac:(lia) NF1 E) as (b & k' & -> & B & -> & SO).
      exists (10 :: b), k'. repeat split; auto; [apply bl_nl; auto|cbn [newlines N.eqb Pos.eqb]; lia].
    + injection E as <- <-. eqb; subst c. exists [], false. split; [reflexivity|]. split; [constructor|]. split; [cbn; lia|]. left; auto.
    + destruct (c =? 92) eqn:C92.
      { destruct (IH fuel true line s1 r l ltac:(lia) NF1 E) as (b & k' & -> & B & -> & SO). eqb; subst c.
        exists (92 :: b), k'. repeat split; auto; [apply bl_cont; auto]. }
      destruct (isspace c) eqn:SP.
      { destruct (IH fuel k line s1 r l ltac:(lia) NF1 E) as (b & k' & -> & B & -> & SO).
        exists (c :: b), k'. repeat split; auto; [|cbn [newlines]; rewrite C10; lia].
        constructor; auto. unfold isspace in SP. unfold space. lia. }
      destruct (two 47 42 (c :: s1)) eqn:T.
      { apply two_true in T as (s2 & ET). injection ET as -> ->.
        destruct (eatcomment 0 line (47 :: 42 :: s2)) as [[s' l']| | |] eqn:EC; try discriminate.
        apply eatcomment_iff in EC as (c & EQ & C & ->). pose proof (comment_len _ C) as LC.
        assert (LS : (length s' < length (47%N :: 42%N :: s2))%nat) by (rewrite EQ, app_length; lia). cbn [length] in LS, L.
        assert (NF' : ~ In 255 s') by (intros ?; apply NF; rewrite EQ; apply in_or_app; auto).
        destruct (IH fuel k (line + newlines c) s' r l ltac:(lia) NF' E) as (b & k' & -> & B & -> & SO).
        exists (c ++ b), k'. rewrite EQ, app_assoc. split; [reflexivity|]. split; [apply bl_comment; auto|].
        split; [rewrite newlines_app; lia|auto]. }
      destruct (two 47 47 (c :: s1)) eqn:T2.
      { apply two_true in T2 as (s2 & ET). injection ET as -> ->. cbn [eatline] in E. cbn [N.eqb Pos.eqb orb] in E.
        destruct (eatline_spec s2) as (t & EQ & N10 & N255 & LE). pose proof (eatline_len s2). cbn [length] in L.
        assert (NF' : ~ In 255 (eatline s2)) by (intros ?; apply NF; right; right; rewrite EQ; apply in_or_app; auto).
        destruct (IH fuel k line (eatline s2) r l ltac:(lia) NF' E) as (b & k' & EB & B & -> & SO).
        exists (47 :: 47 :: t ++ b), k'. split; [cbn; rewrite <- app_assoc, <- EB, <- EQ; reflexivity|].
        split; [|split; [|auto]].
        - apply bl_line; auto. rewrite <- EB. destruct (eatline s2) as [|x y]; cbn; auto. destruct LE as [?| ->]; auto. destruct NF'; left; auto.
        - cbn [newlines N.eqb Pos.eqb]. rewrite newlines_app. assert (newlines t = 0); [|lia].
          clear - N10. induction t as [|x t IHt]; [reflexivity|]. cbn [newlines]. destruct (N.eqb_spec x 10); [destruct N10; left; auto|].
          rewrite IHt; [reflexivity|]. intros ?; apply N10; right; auto. }
      injection E as <- <-. eqb. exists [], k. repeat split; [constructor|cbn; lia|]. right. repeat split; auto.
Qed.

Lemma newlines_0 t : ~ In 10 t -> newlines t = 0.
Proof.
  induction t as [|x t IH]; [reflexivity|]. cbn [newlines In]. intros N. destruct (N.eqb_spec x 10); [subst; tauto|]. rewrite IH; tauto.
Qed.

Lemma space_isspace c : space c -> c <> 10 /\ c <> 92 /\ isspace c = true.
Proof. unfold space, isspace. lia. Qed.

Lemma eatspace_complete k b k' r : blank k b k' r -> forall line fuel fuel',
  (length (b ++ r) < fuel)%nat -> (length r < fuel')%nat ->
  eatspace fuel k line (b ++ r) = eatspace fuel' k' (line + newlines b) r.
Proof.
  induction 1 as [k r|k k' c b r S B IH|k k' b r B IH|k' b r B IH|k k' c b r C B IH|k k' t b r N10 N255 LE B IH]; intros line fuel fuel' F F'.
  - cbn [app newlines] in *. rewrite N.add_0_r. apply (eatspace_fuel (length r)); auto.
  - destruct fuel as [|fuel]; [cbn in F; lia|]. rewrite eatspace_eq. cbn [app length] in *.
    destruct (space_isspace c S) as (A & A' & SP). apply N.eqb_neq in A, A'. rewrite A, A', SP.
    rewrite (IH line fuel fuel') by lia. cbn [newlines]. rewrite A. reflexivity.
  - destruct fuel as [|fuel]; [cbn in F; lia|]. rewrite eatspace_eq. cbn [app length] in *. cbn [N.eqb Pos.eqb].
    rewrite (IH line fuel fuel') by lia. reflexivity.
  - destruct fuel as [|fuel]; [cbn in F; lia|]. rewrite eatspace_eq. cbn [app length] in *. cbn [N.eqb Pos.eqb].
    rewrite (IH (line + 1) fuel fuel') by lia. f_equal. cbn [newlines N.eqb Pos.eqb]. lia.
  - destruct fuel as [|fuel]; [lia|]. rewrite eatspace_eq.
    destruct (comment_start c C) as (s & ->). rewrite <- app_assoc in *. cbn [app] in *. cbn [N.eqb Pos.eqb]. cbn [two N.eqb Pos.eqb andb].
    change (isspace 47) with false. cbn [andb].
    replace (eatcomment 0 line (47 :: 42 :: s ++ b ++ r)) with (@Ok (text * N) (b ++ r, line + newlines (47 :: 42 :: s)))
      by (symmetry; apply eatcomment_iff; exists (47 :: 42 :: s); auto).
    cbn [length] in F. rewrite !app_length in F. rewrite (IH (line + newlines (47 :: 42 :: s)) fuel fuel'); [|rewrite app_length; lia|lia].
    f_equal. change (47 :: 42 :: s ++ b) with ((47 :: 42 :: s) ++ b). rewrite newlines_app. lia.
  - destruct fuel as [|fuel]; [cbn in F; lia|]. rewrite eatspace_eq. cbn [app length] in *. rewrite <- app_assoc in *. cbn [N.eqb Pos.eqb two andb].
    change (isspace 47) with false. cbn [andb]. cbn [eatline N.eqb Pos.eqb orb].
    rewrite eatline_app by auto. rewrite !app_length in F. rewrite (IH line fuel fuel'); [|rewrite app_length; lia|lia].
    f_equal. cbn [newlines N.eqb Pos.eqb]. rewrite newlines_app, (newlines_0 t) by auto. lia.
Qed.
