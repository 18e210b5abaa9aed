From Verif Require Import Base Utf_Spec Tok_Model Tok_Spec Tok_Proofs Tok_Oper.
From Coq Require Import ZifyBool ZifyN ZifyNat Lia.
Local Open Scope N_scope.
Local Open Scope list_scope.

Lemma hexval_iff c d : hexval c = Some d <-> digit_value c d.
Proof.
  unfold hexval, digit_value.
  destruct ((97 <=? c) && (c <=? 102)) eqn:A; [split; [intros H; injection H as <-; lia|intros; f_equal; lia]|].
  destruct ((65 <=? c) && (c <=? 70)) eqn:B; [split; [intros H; injection H as <-; lia|intros; f_equal; lia]|].
  destruct ((48 <=? c) && (c <=? 57)) eqn:C; [split; [intros H; injection H as <-; lia|intros; f_equal; lia]|].
  split; [discriminate|lia].
Qed.
Lemma isxdigit_iff c : isxdigit c = true <-> exists d, digit_value c d.
Proof.
  split.
  - intros H. destruct (hexval c) as [d|] eqn:E; [exists d; apply hexval_iff; auto|].
    unfold hexval in E. unfold isxdigit, isdigit in H.
    destruct ((97 <=? c) && (c <=? 102)) eqn:A; [discriminate|]. destruct ((65 <=? c) && (c <=? 70)) eqn:B; [discriminate|].
    destruct ((48 <=? c) && (c <=? 57)) eqn:C; [discriminate|]. cbn in H. discriminate.
  - intros (d & H). unfold digit_value in H. unfold isxdigit, isdigit. lia.
Qed.
Lemma isdigit_iff c : isdigit c = true <-> digit c.
Proof. unfold isdigit, digit. lia. Qed.

Definition nounder (t : text) : text := filter (fun c => negb (c =? 95)) t.
Definition numchar (mf : bool) (c : N) : bool := isxdigit c || (mf && (c =? 46)) || (c =? 95).
Definition numstop (mf : bool) (r : text) : Prop := match r with [] => True | c :: _ => numchar mf c = false end.

Lemma spelt_digits base t ds v : spelt base t ds -> digitsval base v (nounder t) = value base v ds.
Proof.
  intros S. revert v. induction S as [|t ds S IH|c d t ds D B S IH]; intros v; [reflexivity|exact (IH v)|].
  assert (c =? 95 = false) by (unfold digit_value in D; lia). cbn [nounder filter]. rewrite H. cbn [negb digitsval].
  apply hexval_iff in D. rewrite D. cbn [value]. apply IH.
Qed.
Lemma spelt_nil base t ds : spelt base t ds -> nounder t = [] <-> ds = [].
Proof.
  induction 1 as [|t ds S IH|c d t ds D B S IH]; [cbn; tauto|exact IH|].
  assert (c =? 95 = false) by (unfold digit_value in D; lia). cbn [nounder filter]. rewrite H. cbn [negb]. split; discriminate.
Qed.
Lemma spelt_len base t ds : spelt base t ds -> length (nounder t) = length ds.
Proof.
  induction 1 as [|t ds S IH|c d t ds D B S IH]; [reflexivity|exact IH|].
  assert (c =? 95 = false) by (unfold digit_value in D; lia). cbn [nounder filter]. rewrite H. cbn [negb length]. f_equal. exact IH.
Qed.

Definition good (base : N) : Prop := base = 2 \/ base = 8 \/ base = 10 \/ base = 16.

Lemma numloop_complete base t ds : spelt base t ds -> good base -> forall mf nbuf isf r,
  numstop mf r -> nbuf + N.of_nat (length ds) <= 2047 -> numloop base mf nbuf isf (t ++ r) = Some (nounder t, isf, r).
Proof.
  intros S G. induction S as [|t ds S IH|c d t ds D B S IH]; intros mf nbuf isf r NS L.
  - cbn [app]. destruct r as [|c r]; [reflexivity|]. cbn in NS. unfold numchar in NS. cbn [numloop]. rewrite NS. reflexivity.
  - cbn [app numloop]. rewrite orb_true_r. cbn [N.eqb Pos.eqb]. rewrite (IH mf nbuf isf r NS L). reflexivity.
  - cbn [length] in L. cbn [app numloop].
    assert (X : isxdigit c = true) by (apply isxdigit_iff; eauto). rewrite X. cbn [orb].
    assert (U : c =? 95 = false) by (unfold digit_value in D; lia). rewrite U.
    assert (P : c =? 46 = false) by (unfold digit_value in D; lia). rewrite P.
    unfold sizeofbuf. destruct (N.leb_spec (2048 - 1) nbuf); [lia|].
    assert (EX : (base =? 10) && ((c =? 101) || (c =? 69)) = false) by (unfold digit_value in D; lia). rewrite EX.
    rewrite (proj2 (hexval_iff c d) D). destruct (N.leb_spec base d); [lia|].
    rewrite (IH mf (nbuf + 1) isf r NS) by lia. cbn [nounder filter]. rewrite U. reflexivity.
Qed.

Lemma numloop_len n : forall base mf nbuf isf s b f r, (length s <= n)%nat -> nbuf <= 2047 ->
  numloop base mf nbuf isf s = Some (b, f, r) -> nbuf + N.of_nat (length b) <= 2047.
Proof.
  induction n as [|n IH]; intros base mf nbuf isf s b f r L N0 E.
  - destruct s; [|cbn in L; lia]. injection E as <- <- <-. cbn. lia.
  - destruct s as [|c s1]; [injection E as <- <- <-; cbn; lia|]. cbn [length] in L. cbn [numloop] in E.
    destruct (isxdigit c || mf && (c =? 46) || (c =? 95)); [|injection E as <- <- <-; cbn; lia].
    destruct (c =? 95); [apply (IH base mf nbuf isf s1 b f r); auto; lia|].
    unfold sizeofbuf in E. destruct (N.leb_spec (2048 - 1) nbuf); [discriminate|].
    assert (STEP : forall x, match numloop base mf (nbuf + 1) x s1 with Some (b, f, r) => Some (c :: b, f, r) | None => None end = Some (b, f, r) ->
              nbuf + N.of_nat (length b) <= 2047).
    { intros x E'. destruct (numloop base mf (nbuf + 1) x s1) as [[[b' f'] r']|] eqn:E1; [|discriminate]. injection E' as <- <- <-.
      assert (nbuf + 1 + N.of_nat (length b') <= 2047) by (apply (IH base mf (nbuf + 1) x s1 b' f' r'); auto; lia). cbn [length]. lia. }
    destruct (c =? 46); [eauto|].
    destruct ((base =? 10) && ((c =? 101) || (c =? 69))).
    + destruct s1 as [|d s2]; [eauto|]. destruct (((d =? 43) || (d =? 45)) && (nbuf + 1 <? 2048 - 1)) eqn:Q; [|eauto].
      destruct (numloop base mf (nbuf + 2) true s2) as [[[b' f'] r']|] eqn:E1; [|discriminate]. injection E as <- <- <-.
      cbn [length] in L. assert (nbuf + 2 + N.of_nat (length b') <= 2047) by (apply (IH base mf (nbuf + 2) true s2 b' f' r'); auto; lia).
      cbn [length]. lia.
    + destruct (hexval c) as [d|]; [|discriminate]. destruct (base <=? d); [discriminate|]. eauto.
Qed.

Lemma numloop_true n : forall base mf nbuf s b f r, (length s <= n)%nat ->
  numloop base mf nbuf true s = Some (b, f, r) -> f = true.
Proof.
  induction n as [|n IH]; intros base mf nbuf s b f r L E.
  - destruct s; [|cbn in L; lia]. injection E as <- <- <-. auto.
  - destruct s as [|c s1]; [injection E as <- <- <-; auto|]. cbn [length] in L. cbn [numloop] in E.
    destruct (isxdigit c || mf && (c =? 46) || (c =? 95)); [|injection E as <- <- <-; auto].
    destruct (c =? 95); [apply (IH base mf nbuf s1 b f r); auto; lia|].
    destruct (sizeofbuf - 1 <=? nbuf); [discriminate|].
    assert (STEP : match numloop base mf (nbuf + 1) true s1 with Some (b, f, r) => Some (c :: b, f, r) | None => None end = Some (b, f, r) -> f = true).
    { intros E'. destruct (numloop base mf (nbuf + 1) true s1) as [[[b' f'] r']|] eqn:E1; [|discriminate]. injection E' as <- <- <-.
      apply (IH base mf (nbuf + 1) s1 b' f' r'); auto; lia. }
    destruct (c =? 46); [eauto|].
    destruct ((base =? 10) && ((c =? 101) || (c =? 69))).
    + destruct s1 as [|d s2]; [eauto|]. destruct (((d =? 43) || (d =? 45)) && (nbuf + 1 <? sizeofbuf - 1)) eqn:Q; [|eauto].
      destruct (numloop base mf (nbuf + 2) true s2) as [[[b' f'] r']|] eqn:E1; [|discriminate]. injection E as <- <- <-.
      cbn [length] in L. apply (IH base mf (nbuf + 2) s2 b' f' r'); auto; lia.
    + destruct (hexval c) as [d|]; [|discriminate]. destruct (base <=? d); [discriminate|]. eauto.
Qed.

Lemma numloop_int n : forall base mf nbuf s b r, (length s <= n)%nat ->
  numloop base mf nbuf false s = Some (b, false, r) ->
  exists t ds, s = t ++ r /\ spelt base t ds /\ b = nounder t /\ numstop mf r.
Proof.
  induction n as [|n IH]; intros base mf nbuf s b r L E.
  - destruct s; [|cbn in L; lia]. injection E as <- <-. exists [], []. repeat split; constructor.
  - destruct s as [|c s1]; [injection E as <- <-; exists [], []; repeat split; constructor|]. cbn [length] in L. cbn [numloop] in E.
    destruct (isxdigit c || mf && (c =? 46) || (c =? 95)) eqn:NC; [|injection E as <- <-; exists [], []; repeat split; [constructor|exact NC]].
    destruct (c =? 95) eqn:U.
    { destruct (IH base mf nbuf s1 b r ltac:(lia) E) as (t & ds & -> & S & -> & NS). eqb; subst c.
      exists (95 :: t), ds. repeat split; auto. constructor; auto. }
    destruct (sizeofbuf - 1 <=? nbuf); [discriminate|].
    assert (NT : forall k x s0 b' f' r', numloop base mf k true s0 = Some (b', f', r') -> x = f' -> x = false -> False).
    { intros k x s0 b' f' r' E1 -> F. assert (f' = true); [|congruence].
      apply (numloop_true (length s0) base mf k s0 b' f' r'); auto. }
    assert (STEPF : match numloop base mf (nbuf + 1) true s1 with Some (b, f, r) => Some (c :: b, f, r) | None => None end = Some (b, false, r) -> False).
    { intros E'. destruct (numloop base mf (nbuf + 1) true s1) as [[[b' f'] r']|] eqn:E1; [|discriminate]. injection E' as <- -> <-.
      eapply (NT _ false); eauto. }
    destruct (c =? 46); [destruct STEPF; auto|].
    destruct ((base =? 10) && ((c =? 101) || (c =? 69))).
    + destruct s1 as [|d s2]; [destruct STEPF; auto|]. destruct (((d =? 43) || (d =? 45)) && (nbuf + 1 <? sizeofbuf - 1)) eqn:Q; [|destruct STEPF; auto].
      destruct (numloop base mf (nbuf + 2) true s2) as [[[b' f'] r']|] eqn:E1; [|discriminate]. injection E as <- -> <-.
      exfalso. eapply (NT _ false); eauto.
    + destruct (hexval c) as [d|] eqn:HX; [|discriminate]. destruct (N.leb_spec base d); [discriminate|].
      destruct (numloop base mf (nbuf + 1) false s1) as [[[b' f'] r']|] eqn:E1; [|discriminate]. injection E as <- -> <-.
      destruct (IH base mf (nbuf + 1) s1 b' r' ltac:(lia) E1) as (t & ds & -> & S & -> & NS).
      exists (c :: t), (d :: ds). repeat split; auto.
      * constructor; auto. apply hexval_iff; auto.
      * cbn [nounder filter]. rewrite U. reflexivity.
Qed.

Definition fltchar (c : N) : Prop := digit c \/ In c [46; 95; 101; 69; 43; 45].
Lemma numloop_flt n : forall mf nbuf isf s b f r, (length s <= n)%nat ->
  numloop 10 mf nbuf isf s = Some (b, f, r) ->
  exists t, s = t ++ r /\ b = nounder t /\ Forall fltchar t /\ (f = true -> isf = true \/ In 46 t \/ In 101 t \/ In 69 t).
Proof.
  induction n as [|n IH]; intros mf nbuf isf s b f r L E.
  - destruct s; [|cbn in L; lia]. injection E as <- <- <-. exists []. repeat split; auto.
  - destruct s as [|c s1]; [injection E as <- <- <-; exists []; repeat split; auto|]. cbn [length] in L. cbn [numloop] in E.
    destruct (isxdigit c || mf && (c =? 46) || (c =? 95)) eqn:NC; [|injection E as <- <- <-; exists []; repeat split; auto].
    destruct (c =? 95) eqn:U.
    { destruct (IH mf nbuf isf s1 b f r ltac:(lia) E) as (t & -> & -> & F & I). eqb; subst c.
      exists (95 :: t). repeat split; auto.
      - constructor; auto. right; cbn; auto.
      - intros X. cbn [In]. destruct (I X); tauto. }
    destruct (sizeofbuf - 1 <=? nbuf); [discriminate|].
    assert (STEP : forall x, fltchar c -> (x = true -> isf = true \/ c = 46 \/ c = 101 \/ c = 69) ->
      match numloop 10 mf (nbuf + 1) x s1 with Some (b, f, r) => Some (c :: b, f, r) | None => None end = Some (b, f, r) ->
      exists t, c :: s1 = t ++ r /\ b = nounder t /\ Forall fltchar t /\ (f = true -> isf = true \/ In 46 t \/ In 101 t \/ In 69 t)).
    { intros x FC XC E'. destruct (numloop 10 mf (nbuf + 1) x s1) as [[[b' f'] r']|] eqn:E1; [|discriminate]. injection E' as <- <- <-.
      destruct (IH mf (nbuf + 1) x s1 b' f' r' ltac:(lia) E1) as (t & -> & -> & F & I).
      exists (c :: t). repeat split; auto.
      - cbn [nounder filter]. rewrite U. reflexivity.
      - intros X. cbn [In]. destruct (I X) as [X'|X']; [|tauto]. destruct (XC X') as [?|[->|[->| ->]]]; tauto. }
    destruct (c =? 46) eqn:P; [eqb; subst c; apply (STEP true); auto; right; cbn; auto|].
    destruct ((10 =? 10) && ((c =? 101) || (c =? 69))) eqn:EX.
    + assert (EC : c = 101 \/ c = 69) by lia. assert (FC : fltchar c) by (right; cbn; lia).
      destruct s1 as [|d s2]; [apply (STEP true); auto|].
      destruct (((d =? 43) || (d =? 45)) && (nbuf + 1 <? sizeofbuf - 1)) eqn:Q; [|apply (STEP true); auto].
      destruct (numloop 10 mf (nbuf + 2) true s2) as [[[b' f'] r']|] eqn:E1; [|discriminate]. injection E as <- <- <-.
      cbn [length] in L. destruct (IH mf (nbuf + 2) true s2 b' f' r' ltac:(lia) E1) as (t & -> & -> & F & I).
      assert (DC : d = 43 \/ d = 45) by lia. exists (c :: d :: t). repeat split; auto.
      * cbn [nounder filter]. rewrite U. replace (d =? 95) with false by lia. reflexivity.
      * constructor; auto. constructor; auto. right; cbn; lia.
      * intros _. cbn [In]. tauto.
    + destruct (hexval c) as [d|] eqn:HX; [|discriminate]. destruct (N.leb_spec 10 d); [discriminate|].
      apply hexval_iff in HX. apply (STEP isf); auto. left. unfold digit_value in HX. unfold digit. lia.
Qed.

(* ---- suffixes ---- *)
Lemma sizesuffix_iff c t : sizesuffix c = Some t <-> In (c, t) sizes.
Proof.
  unfold sizesuffix, sizes. cbn [In]. split.
  - repeat match goal with |- context [if ?b then _ else _] => destruct b eqn:? end; intros H; try discriminate; injection H as <-.
    all: match goal with H : _ || _ = true |- _ => apply orb_prop in H as [H|H]; apply N.eqb_eq in H; subst; tauto end.
  - intros H. repeat (destruct H as [H|H]; [injection H as <- <-; reflexivity|]). destruct H.
Qed.
Definition sufchar (c : N) : bool := (c =? 117) || (c =? 85) || match sizesuffix c with Some _ => true | None => false end.
Lemma suffix_sound s ty r : suffix s = Some (ty, r) -> exists sx, s = sx ++ r /\ int_suffix sx ty /\
  (sx = [] -> match r with [] => True | c :: _ => sufchar c = false end).
Proof.
  destruct s as [|c s]; cbn [suffix]; [intros H; injection H as <- <-; exists []; repeat split; auto; constructor|].
  destruct ((c =? 117) || (c =? 85)) eqn:U.
  - destruct s as [|d s]; [discriminate|]. destruct (sizesuffix d) as [t|] eqn:D; [|discriminate]. intros H; injection H as <- <-.
    exists [c; d]. repeat split; [|discriminate]. apply sizesuffix_iff in D. constructor; auto. lia.
  - destruct (sizesuffix c) as [t|] eqn:D; intros H; injection H as <- <-.
    + exists [c]. repeat split; [|discriminate]. apply sizesuffix_iff in D. constructor; auto.
    + exists []. repeat split; [constructor|]. intros _. unfold sufchar. rewrite U, D. reflexivity.
Qed.
Lemma suffix_complete sx ty r : int_suffix sx ty -> (sx = [] -> match r with [] => True | c :: _ => sufchar c = false end) ->
  suffix (sx ++ r) = Some (ty, r).
Proof.
  intros S N. destruct S as [|c t I|u c t U I]; cbn [app].
  - specialize (N eq_refl). destruct r as [|c r]; [reflexivity|]. cbn [suffix]. unfold sufchar in N.
    destruct ((c =? 117) || (c =? 85)); [discriminate|]. destruct (sizesuffix c); [discriminate|reflexivity].
  - cbn [suffix]. apply sizesuffix_iff in I as E. rewrite E.
    assert ((c =? 117) || (c =? 85) = false) as ->; [|reflexivity].
    destruct ((c =? 117) || (c =? 85)) eqn:X; [|reflexivity]. apply orb_prop in X as [X|X]; apply N.eqb_eq in X; subst; discriminate E.
  - cbn [suffix]. apply sizesuffix_iff in I. rewrite I. assert ((u =? 117) || (u =? 85) = true) as -> by lia. reflexivity.
Qed.

(* ---- number and numlit ---- *)
Lemma number_sound base mf s v ty r : number base mf s = Ok (Int v ty, r) ->
  exists t ds sx, s = t ++ sx ++ r /\ spelt base t ds /\ ds <> [] /\ int_suffix sx ty /\ v = N.min (value base 0 ds) (2 ^ 64 - 1) /\
    (sx = [] -> match r with [] => True | c :: _ => numchar mf c = false /\ sufchar c = false end).
Proof.
  unfold number. destruct (numloop base mf 0 false s) as [[[b f] r1]|] eqn:E; [|discriminate].
  destruct f; [destruct (base =? 10); discriminate|].
  destruct (numloop_int (length s) base mf 0 s b r1 (Nat.le_refl _) E) as (t & ds & -> & S & -> & NS).
  destruct (strtoull base (nounder t)) as [v'|] eqn:ST; [|discriminate].
  destruct (suffix r1) as [[ty' r2]|] eqn:SX; [|discriminate]. intros H; injection H as <- <- <-.
  destruct (suffix_sound _ _ _ SX) as (sx & -> & IS & N).
  exists t, ds, sx. repeat split; auto.
  - intros ->. apply spelt_nil in S. rewrite (proj2 S eq_refl) in ST. discriminate.
  - unfold strtoull in ST. destruct (nounder t) eqn:NU; [discriminate|]. rewrite <- NU in ST.
    rewrite (spelt_digits _ _ _ 0 S) in ST. injection ST as <-. reflexivity.
  - intros ->. specialize (N eq_refl). cbn [app] in *. destruct r2; auto.
Qed.
Lemma number_complete base mf t ds sx ty r : good base -> spelt base t ds -> ds <> [] -> (length ds <= 2047)%nat -> int_suffix sx ty ->
  numstop mf (sx ++ r) -> (sx = [] -> match r with [] => True | c :: _ => sufchar c = false end) ->
  number base mf (t ++ sx ++ r) = Ok (Int (N.min (value base 0 ds) (2 ^ 64 - 1)) ty, r).
Proof.
  intros G S NE L IS NS SS. unfold number. rewrite (numloop_complete base t ds S G mf 0 false (sx ++ r) NS) by lia.
  assert (ST : strtoull base (nounder t) = Some (N.min (value base 0 ds) (2 ^ 64 - 1))).
  { unfold strtoull. destruct (nounder t) eqn:NU; [apply (spelt_nil base t ds S) in NU; congruence|]. rewrite <- NU.
    rewrite (spelt_digits _ _ _ 0 S). reflexivity. }
  rewrite ST, (suffix_complete sx ty r IS SS). reflexivity.
Qed.
Lemma number_flt base mf s b r : number base mf s = Ok (Flt b, r) ->
  base = 10 /\ exists t, s = t ++ r /\ b = nounder t /\ Forall fltchar t /\ (In 46 t \/ In 101 t \/ In 69 t).
Proof.
  unfold number. destruct (numloop base mf 0 false s) as [[[b' f] r1]|] eqn:E; [|discriminate].
  destruct f.
  - destruct (N.eqb_spec base 10); [|discriminate]. subst base. intros H; injection H as <- <-. split; [reflexivity|].
    destruct (numloop_flt (length s) mf 0 false s b' true r1 (Nat.le_refl _) E) as (t & -> & -> & F & I).
    exists t. repeat split; auto. destruct (I eq_refl); [discriminate|auto].
  - destruct (strtoull base b'); [|discriminate]. destruct (suffix r1) as [[? ?]|]; discriminate.
Qed.
Lemma number_kinds base mf s : match number base mf s with
  | Ok (Int _ _, _) | Ok (Flt _, _) | Fatal => True | _ => False end.
Proof.
  unfold number. destruct (numloop base mf 0 false s) as [[[b' f] r1]|] eqn:E; [|exact I].
  destruct f; [destruct (base =? 10); exact I|]. destruct (strtoull base b'); [|exact I]. destruct (suffix r1) as [[? ?]|]; exact I.
Qed.

Lemma numlit_cases mf s : exists p base s', prefix base p /\ s = p ++ s' /\ numlit mf s = number base mf s'.
Proof.
  unfold numlit. destruct (mtch 48 s) as [s1|] eqn:A; [|exists [], 10, s; repeat split; constructor].
  apply mtch_some in A as ->.
  destruct (mtch 120 s1) as [s2|] eqn:B; [apply mtch_some in B as ->; exists (bytes "0x"), 16, s2; repeat split; constructor|].
  destruct (mtch 98 s1) as [s2|] eqn:C; [apply mtch_some in C as ->; exists (bytes "0b"), 2, s2; repeat split; constructor|].
  destruct (mtch 111 s1) as [s2|] eqn:D; [apply mtch_some in D as ->; exists (bytes "0o"), 8, s2; repeat split; constructor|].
  exists [], 10, (48 :: s1). repeat split; constructor.
Qed.
Lemma prefix_good base p : prefix base p -> good base.
Proof. unfold good. destruct 1; auto. Qed.

(* the literal is followed by something that is neither part of it nor a letter or digit *)
Definition ends (mf : bool) (r : text) : Prop := match r with [] => True | c :: _ => ~ word_char c /\ (mf = true -> c <> 46) end.
Lemma ends_numstop mf r : ends mf r -> numstop mf r /\ match r with [] => True | c :: _ => sufchar c = false end.
Proof.
  destruct r as [|c r]; cbn; [auto|]. unfold word_char, word_start, letter, digit. intros [W P]. split.
  - unfold numchar, isxdigit, isdigit. destruct mf; cbn [andb]; lia.
  - unfold sufchar. destruct (sizesuffix c) eqn:S; [|lia]. apply sizesuffix_iff in S. unfold sizes in S. cbn [In] in S.
    exfalso. apply W. repeat (destruct S as [S|S]; [injection S as <- <-; lia|]). destruct S.
Qed.
Lemma suffix_numstop mf sx ty r : int_suffix sx ty -> ~ In (hd 0 sx) [98; 66] -> (sx = [] -> numstop mf r) -> numstop mf (sx ++ r).
Proof.
  intros S NB N. destruct S as [|c t I|u c t U I]; cbn [app].
  - apply N; auto.
  - cbn [hd] in NB. cbn [numstop]. unfold numchar, isxdigit, isdigit.
    unfold sizes in I. cbn [In] in I, NB. destruct mf; cbn [andb];
    repeat (destruct I as [I|I]; [injection I as <- <-; try reflexivity; exfalso; apply NB; tauto|]); destruct I.
  - cbn [numstop]. unfold numchar, isxdigit, isdigit. destruct mf; cbn [andb]; lia.
Qed.

Lemma numlit_complete mf p t sx base ds ty r : literal p t sx base ds ty -> (length ds <= 2047)%nat ->
  ~ In (hd 0 sx) [98; 66] -> (sx = [] -> ends mf r) ->
  numlit mf (p ++ t ++ sx ++ r) = Ok (Int (N.min (value base 0 ds) (2 ^ 64 - 1)) ty, r).
Proof.
  intros (P & S & NE & IS & T10) L NB EN.
  assert (NUM : number base mf (t ++ sx ++ r) = Ok (Int (N.min (value base 0 ds) (2 ^ 64 - 1)) ty, r)).
  { apply number_complete; auto; [apply (prefix_good _ _ P)| |].
    - apply (suffix_numstop mf sx ty r IS NB). intros E. apply ends_numstop; auto.
    - intros E. apply (ends_numstop mf r); auto. }
  destruct P; try exact NUM.
  unfold numlit. cbn [app]. destruct (mtch 48 (t ++ sx ++ r)) as [s1|] eqn:A; [|exact NUM].
  apply mtch_some in A.
  assert (X : match s1 with [] => True | c :: _ => c <> 120 /\ c <> 98 /\ c <> 111 end).
  { specialize (T10 eq_refl). destruct t as [|c t]; [destruct T10|]. cbn [app] in A. injection A as -> <-.
    inversion S as [| |? d ? ds' D B S']; subst.
    destruct t as [|c t]; cbn [app].
    - destruct IS as [|c ty I|u c ty U I]; cbn [app].
      + specialize (EN eq_refl). destruct r as [|c r]; [exact Logic.I|]. cbn in EN. unfold word_char, word_start, letter, digit in EN. lia.
      + cbn [hd] in NB. unfold sizes in I; cbn [In] in I, NB.
        repeat (destruct I as [I|I]; [injection I as <- <-; first [lia|exfalso; apply NB; tauto]|]); destruct I.
      + lia.
    - inversion S' as [|? ? S''|? d' ? ? D' B' S'']; subst; [lia|]. unfold digit_value in D'. lia. }
  rewrite A in *. destruct s1 as [|c s1]; [exact NUM|]. cbn [mtch].
  destruct (N.eqb_spec c 120); [lia|]. destruct (N.eqb_spec c 98); [lia|]. destruct (N.eqb_spec c 111); [lia|]. exact NUM.
Qed.
Lemma numlit_sound mf s v ty r : starts digit s -> numlit mf s = Ok (Int v ty, r) ->
  exists p t sx base ds, s = p ++ t ++ sx ++ r /\ literal p t sx base ds ty /\ v = N.min (value base 0 ds) (2 ^ 64 - 1) /\
    (sx = [] -> match r with [] => True | c :: _ => ~ (exists d, digit_value c d) /\ c <> 95 end).
Proof.
  intros SD E. destruct (numlit_cases mf s) as (p & base & s' & P & -> & EQ). rewrite EQ in E.
  destruct (number_sound _ _ _ _ _ _ E) as (t & ds & sx & -> & S & NE & IS & -> & N).
  exists p, t, sx, base, ds. repeat split; auto.
  - intros ->. inversion P; subst. cbn [app] in SD. destruct t as [|c t]; [inversion S; subst; congruence|]. exact SD.
  - intros ->. specialize (N eq_refl). destruct r as [|c r]; auto. destruct N as [N _]. unfold numchar in N. split; [|lia].
    intros X. apply isxdigit_iff in X. rewrite X in N. discriminate.
Qed.
Lemma numlit_flt mf s b r : starts digit s -> numlit mf s = Ok (Flt b, r) ->
  exists t, s = t ++ r /\ b = nounder t /\ starts digit t /\ Forall fltchar t /\ (In 46 t \/ In 101 t \/ In 69 t).
Proof.
  intros SD E. destruct (numlit_cases mf s) as (p & base & s' & P & -> & EQ). rewrite EQ in E.
  destruct (number_flt _ _ _ _ _ E) as (-> & t & -> & -> & F & I). inversion P; subst. cbn [app] in *.
  exists t. repeat split; auto. destruct t as [|c t]; [cbn in I; tauto|exact SD].
Qed.
Lemma numlit_kinds mf s : match numlit mf s with Ok (Int _ _, _) | Ok (Flt _, _) | Fatal => True | _ => False end.
Proof. destruct (numlit_cases mf s) as (p & base & s' & P & -> & ->). apply number_kinds. Qed.
