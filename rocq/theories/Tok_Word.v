From Verif Require Import Base Utf_Spec Tok_Model Tok_Spec Tok_Proofs Tok_Oper.
From Coq Require Import ZifyBool ZifyN ZifyNat Lia.
Local Open Scope N_scope.
Local Open Scope list_scope.

(* ---- keywords ---- *)
Lemma strcmp_eq a b : strcmp a b = Eq <-> a = b.
Proof.
  revert b; induction a as [|x a IH]; intros [|y b]; cbn; try (split; [reflexivity|discriminate] || split; discriminate); [tauto|].
  destruct (N.compare_spec x y) as [->|L|L]; [rewrite IH; split; congruence| |]; split; try discriminate; intros E; injection E; lia.
Qed.
Lemma strcmp_antisym a b : strcmp b a = CompOpp (strcmp a b).
Proof.
  revert b; induction a as [|x a IH]; intros [|y b]; cbn; try reflexivity.
  rewrite (N.compare_antisym x y). destruct (x ?= y); cbn; auto.
Qed.
Lemma strcmp_trans a b c : strcmp a b = Lt -> strcmp b c = Lt -> strcmp a c = Lt.
Proof.
  revert b c; induction a as [|x a IH]; intros [|y b] [|z c]; cbn; try discriminate; auto.
  destruct (N.compare_spec x y) as [->|L|L]; try discriminate; intros A; destruct (N.compare_spec y z) as [->|M|M]; try discriminate; intros B.
  - eauto.
  - reflexivity.
  - apply N.compare_lt_iff in L. rewrite L. reflexivity.
  - assert (x < z) as H by lia. apply N.compare_lt_iff in H. rewrite H. reflexivity.
Qed.

Definition key (tbl : list (text * tt)) (i : nat) : text := fst (nth i tbl ([], Tident)).
Definition increasing (tbl : list (text * tt)) : Prop :=
  forall i j, (i < j < length tbl)%nat -> strcmp (key tbl i) (key tbl j) = Lt.
Lemma kwsearch_spec tbl w : increasing tbl -> forall fuel min max, (max - min < fuel)%nat -> (max <= length tbl)%nat ->
  (forall i, (i < length tbl)%nat -> key tbl i = w -> (min <= i < max)%nat) ->
  exists t, kwsearch fuel tbl w min max = Some t /\
    (In (w, t) tbl \/ (t = Tident /\ forall t', ~ In (w, t') tbl)).
Proof.
  intros INC. induction fuel as [|fuel IH]; intros min max F M INV; [lia|]. cbn [kwsearch].
  destruct (Nat.ltb_spec min max).
  - set (mid := Nat.div2 (max + min)).
    assert (MID : (min <= mid < max)%nat).
    { unfold mid. rewrite Nat.div2_div. split; [apply Nat.div_le_lower_bound; lia|apply Nat.div_lt_upper_bound; lia]. }
    change (fst (nth mid tbl ([], Tident))) with (key tbl mid).
    destruct (strcmp w (key tbl mid)) eqn:C.
    + apply strcmp_eq in C. eexists. split; [reflexivity|]. left.
      assert (In (nth mid tbl ([], Tident)) tbl) as I by (apply nth_In; lia).
      rewrite C. unfold key. rewrite <- surjective_pairing. exact I.
    + apply IH; [lia|lia|]. intros i Li K. pose proof (INV i Li K). split; [lia|].
      destruct (Nat.lt_ge_cases i mid); [auto|]. exfalso.
      destruct (Nat.eq_dec i mid) as [->|NE].
      * rewrite K in C. assert (strcmp w w = Eq) by (apply strcmp_eq; reflexivity). congruence.
      * assert (strcmp (key tbl mid) (key tbl i) = Lt) as X by (apply INC; lia).
        rewrite K in X. pose proof (strcmp_trans _ _ _ C X) as Y. assert (strcmp w w = Eq) by (apply strcmp_eq; reflexivity). congruence.
    + apply IH; [lia|lia|]. intros i Li K. pose proof (INV i Li K). split; [|lia].
      destruct (Nat.le_gt_cases (S mid) i); [auto|]. exfalso.
      destruct (Nat.eq_dec i mid) as [->|NE].
      * rewrite K in C. assert (strcmp w w = Eq) by (apply strcmp_eq; reflexivity). congruence.
      * assert (strcmp (key tbl i) (key tbl mid) = Lt) as X by (apply INC; lia).
        rewrite K in X. rewrite X in C. discriminate.
  - exists Tident. split; [reflexivity|]. right. split; [reflexivity|]. intros t' I.
    apply (In_nth _ _ ([], Tident)) in I as (i & Li & E). assert (key tbl i = w) by exact (f_equal fst E).
    pose proof (INV i Li H0). lia.
Qed.

Lemma kwmap_increasing : increasing kwmap.
Proof.
  assert (H : forallb (fun i => forallb (fun j => if Nat.ltb i j then match strcmp (key kwmap i) (key kwmap j) with Lt => true | _ => false end else true)
                (seq 0 (length kwmap))) (seq 0 (length kwmap)) = true) by (vm_compute; reflexivity).
  intros i j L. rewrite forallb_forall in H. specialize (H i). rewrite in_seq in H. specialize (H ltac:(lia)).
  rewrite forallb_forall in H. specialize (H j). rewrite in_seq in H. specialize (H ltac:(lia)).
  destruct (Nat.ltb_spec i j); [|lia]. destruct (strcmp _ _); congruence.
Qed.

Definition kws := Eval vm_compute in keywords.
Definition kwm := Eval vm_compute in kwmap.
Lemma kwmap_keywords p : In p kwmap <-> In p keywords.
Proof.
  replace keywords with kws by (vm_compute; reflexivity). replace kwmap with kwm by (vm_compute; reflexivity). unfold kwm, kws.
  split; cbn [In]; tauto.
Qed.
Lemma keywords_unique w t t' : In (w, t) keywords -> In (w, t') keywords -> t = t'.
Proof. apply assoc_unique. vm_compute. reflexivity. Qed.

Lemma kwd_iff w t : kwd w = Some t <-> word_type w t.
Proof.
  assert (X : exists t, kwd w = Some t /\ word_type w t).
  { destruct (kwsearch_spec kwmap w kwmap_increasing (S (length kwmap)) 0 (length kwmap)) as (t' & E & H); [lia|lia|intros; lia|].
    exists t'. split; [exact E|]. unfold word_type. destruct H as [H|[-> H]].
    - left. apply kwmap_keywords. exact H.
    - right. split; [reflexivity|]. intros t' I. apply (H t'). apply kwmap_keywords. exact I. }
  destruct X as (t' & E & H). split.
  - intros E'. congruence.
  - intros H'. rewrite E. f_equal. unfold word_type in *.
    destruct H as [H|[-> H]], H' as [H'|[-> H']]; auto.
    + eapply keywords_unique; eauto.
    + destruct (H' _ H).
    + destruct (H _ H').
Qed.
Lemma kwd_some w : exists t, kwd w = Some t.
Proof.
  destruct (kwsearch_spec kwmap w kwmap_increasing (S (length kwmap)) 0 (length kwmap)) as (t' & E & H); [lia|lia|intros; lia|].
  exists t'. exact E.
Qed.

(* ---- words ---- *)
Lemma identchar_iff c : identchar c = true <-> word_char c.
Proof. unfold identchar, isalnum, isalpha, isdigit, word_char, word_start, letter, digit. lia. Qed.
Lemma identscan_spec room s : forall id r, identscan room s = (id, r) ->
  s = id ++ r /\ Forall word_char id /\ (length id <= room)%nat /\ ((length id < room)%nat -> ~ starts word_char r).
Proof.
  revert s; induction room as [|room IH]; intros s id r E.
  - destruct s; injection E as <- <-; repeat split; auto; intros; lia.
  - destruct s as [|c s]; cbn [identscan] in E.
    + injection E as <- <-. repeat split; auto. cbn; lia.
    + destruct (identchar c) eqn:C.
      * destruct (identscan room s) as [id' r'] eqn:E'. injection E as <- <-.
        destruct (IH s id' r' E') as (-> & F & L & N). repeat split; auto; [constructor; [apply identchar_iff; auto|auto]|cbn; lia|].
        intros L'. apply N. cbn in L'. lia.
      * injection E as <- <-. repeat split; auto; [cbn; lia|]. intros _ W. cbn in W. apply identchar_iff in W. congruence.
Qed.
Lemma identscan_word room w r : Forall word_char w -> (length w < room)%nat -> ~ starts word_char r -> identscan room (w ++ r) = (w, r).
Proof.
  intros F. revert room; induction F as [|c w C F IH]; intros room L NS.
  - cbn [app]. destruct room; [cbn in L; lia|]. destruct r as [|c r]; [reflexivity|]. cbn [identscan].
    destruct (identchar c) eqn:E; [|reflexivity]. destruct NS. cbn. apply identchar_iff; auto.
  - destruct room; [cbn in L; lia|]. cbn [app identscan]. apply identchar_iff in C. rewrite C, IH; auto. cbn in L. lia.
Qed.
Lemma identscan_long room w r : Forall word_char w -> (room <= length w)%nat -> length (fst (identscan room (w ++ r))) = room.
Proof.
  intros F. revert room; induction F as [|c w C F IH]; intros room L.
  - cbn in L. destruct room; [|lia]. destruct (app [] r); reflexivity.
  - destruct room; [reflexivity|]. cbn [app identscan]. apply identchar_iff in C. rewrite C.
    specialize (IH room). destruct (identscan room (w ++ r)) as [id r'] eqn:E. cbn [fst length] in *. rewrite IH; [reflexivity|lia].
Qed.
