(* Liveness, 6/ra.c:279-336: exactness and termination. *)
From Verif Require Import Base Cfg_Reach Ra_Spec Ra_Model.
(* Cfg_Reach brings the control-flow model's names into scope; the allocator's are wanted here *)
Import Ra_Spec Ra_Model.

Lemma existsb_eqb r l : existsb (Nat.eqb r) l = true <-> In r l.
Proof.
  rewrite existsb_exists. split; [intros (x & H & E); apply Nat.eqb_eq in E; now subst|].
  intros H; exists r; split; auto. apply Nat.eqb_refl.
Qed.
Lemma existsb_eqb_f r l : existsb (Nat.eqb r) l = false <-> ~ In r l.
Proof. rewrite <- existsb_eqb. destruct (existsb _ _); split; congruence. Qed.

Lemma filter_length_sub (A : Type) (f h : A -> bool) l : (forall x, In x l -> f x = true -> h x = true) -> length (filter f l) <= length (filter h l).
Proof.
  induction l as [|x l IH]; intros H; cbn; auto. assert (length (filter f l) <= length (filter h l)) by (apply IH; intros; apply H; [now right|auto]).
  destruct (f x) eqn:F; [rewrite (H x); auto; [|now left]|destruct (h x)]; cbn; lia.
Qed.
Lemma filter_length_lt (A : Type) (f h : A -> bool) l x : (forall x, In x l -> f x = true -> h x = true) -> In x l -> f x = false -> h x = true ->
  length (filter f l) < length (filter h l).
Proof.
  induction l as [|y l IH]; intros H Hin F G; [destruct Hin|].
  assert (L : length (filter f l) <= length (filter h l)) by (apply filter_length_sub; intros; apply H; [now right|auto]).
  destruct Hin as [->|Hin].
  - cbn. rewrite F, G. cbn. lia.
  - assert (length (filter f l) < length (filter h l)) by (apply IH; auto; intros; apply H; [now right|auto]).
    cbn. destruct (f y) eqn:Fy; [rewrite (H y); auto; [|now left]|destruct (h y)]; cbn; lia.
Qed.

Definition nofix (i : insn) : Prop := forall r, mentions i r -> isfixreg r = false.

Lemma namable_nofix r : namable r = true -> isfixreg r = false.
Proof.
  intros H. unfold isfixreg, Resp, Rebp. destruct (Nat.eqb_spec r 43); [subst; discriminate H|].
  destruct (Nat.eqb_spec r 44); [subst; discriminate H|]. reflexivity.
Qed.
Lemma wf_nofix p i : wf_prog p -> in_prog p i -> nofix i.
Proof.
  intros W Hi r M. destruct (wf_regs p W i r Hi M) as [_ H]. destruct (Nat.lt_ge_cases r nphys) as [L|L].
  - apply namable_nofix; auto.
  - unfold isfixreg, Resp, Rebp. unfold nphys in L. destruct (Nat.eqb_spec r 43); [lia|]. destruct (Nat.eqb_spec r 44); [lia|]. auto.
Qed.

Lemma in_argregs ks l r : (forall r, In (Lreg r) l -> isfixreg r = false) ->
  In r (argregs ks l) <-> exists k, In k ks /\ nth_error l (k - 1) = Some (Lreg r).
Proof.
  intros NF. unfold argregs. rewrite in_flat_map. split; intros (k & Hk & H); exists k; split; auto.
  - destruct (nth_error l (k - 1)) as [[x| | |]|] eqn:E; try destruct H.
    destruct (isfixreg x); [destruct H|destruct H as [->|[]]]. auto.
  - rewrite H, NF; [now left|]. eapply nth_error_In; eauto.
Qed.

Lemma uses_reads i r : nofix i -> In r (uses i) <-> reads i r.
Proof.
  intros NF. unfold uses, reads. rewrite !in_app_iff, in_argregs, in_flat_map.
  2: { intros x Hx. apply NF. left. exists (Lreg x). auto. }
  assert (Q : (exists x, In x (args i) /\ In r match x with
     | Lmem b => if isfixreg b then [] else [b]
     | Lmemi b y => (if isfixreg b then [] else [b]) ++ (if isfixreg b then [] else [y])
     | _ => [] end) <-> exists a, In a (args i) /\ match a with Lmem b => r = b | Lmemi b x => r = b \/ r = x | _ => False end).
  { split; intros (a & Ha & H); exists a; split; auto; destruct a as [x|b|b x|]; auto.
    - rewrite (NF b) in H; [destruct H as [->|[]]; auto|]. left. exists (Lmem b). auto.
    - rewrite (NF b) in H; [destruct H as [->|[->|[]]]; auto|]. left. exists (Lmemi b x). auto.
    - rewrite (NF b); [left; auto|]. left. exists (Lmem b). auto.
    - rewrite (NF b); [destruct H as [->| ->]; cbn; auto|]. left. exists (Lmemi b x). auto. }
  rewrite Q. reflexivity.
Qed.
Lemma defs_writes i r : nofix i -> In r (defs i) <-> writes i r.
Proof.
  intros NF. unfold defs, writes. rewrite in_app_iff, in_argregs; [reflexivity|].
  intros x Hx. apply NF. left. exists (Lreg x). auto.
Qed.
Lemma reads_mentions i r : reads i r -> mentions i r.
Proof.
  unfold reads, mentions, argreg. intros [(k & _ & H)|[H|(a & Ha & H)]]; auto.
  - left. apply nth_error_In in H. exists (Lreg r). auto.
  - left. exists a. split; auto. destruct a; auto; destruct H.
Qed.
Lemma writes_mentions i r : writes i r -> mentions i r.
Proof.
  unfold writes, mentions, argreg. intros [(k & _ & H)|H]; auto.
  left. apply nth_error_In in H. exists (Lreg r). auto.
Qed.

(* ---------- transfer functions ---------- *)

Definition flow (i : insn) (X : bset) : bset := fold_left bsput (uses i) (fold_left bsdel (defs i) X).
Definition flows (l : list insn) (X : bset) : bset := fold_right flow X l.

Lemma has_flow i X r : bshas (flow i X) r = existsb (Nat.eqb r) (uses i) || (bshas X r && negb (existsb (Nat.eqb r) (defs i))).
Proof. unfold flow. rewrite has_fold_put, has_fold_del. now rewrite orb_comm. Qed.

Definition app_ud (ud : bset * bset) (X : bset) : bset := bsunion (bsdiff X (snd ud)) (fst ud).

Lemma has_usefold df l : forall us r, bshas (fold_left (fun us r => if bshas df r then us else bsput us r) l us) r
  = bshas us r || (existsb (Nat.eqb r) l && negb (bshas df r)).
Proof.
  induction l as [|x l IH]; intros us r; cbn [fold_left existsb]; [now rewrite orb_false_r|].
  rewrite IH. destruct (bshas df x) eqn:E.
  - destruct (Nat.eqb_spec r x) as [->|N]; auto. rewrite E, !andb_false_r. reflexivity.
  - rewrite has_put, (Nat.eqb_sym x r). destruct (Nat.eqb_spec r x) as [->|N]; cbn [orb andb]; auto.
    rewrite E. cbn. now rewrite orb_true_r.
Qed.

Lemma udcalc1_flow ud i X : app_ud (udcalc1 ud i) X = app_ud ud (flow i X).
Proof.
  destruct ud as [us df]. apply bset_ext. intros r. unfold app_ud, udcalc1. cbn [fst snd].
  rewrite !has_union, !has_diff, has_usefold, has_fold_put, has_flow.
  destruct (bshas X r), (bshas us r), (bshas df r), (existsb (Nat.eqb r) (uses i)), (existsb (Nat.eqb r) (defs i)); reflexivity.
Qed.
Lemma udcalc_flows b X : app_ud (udcalc b) X = flows (il b) X.
Proof.
  unfold udcalc. assert (H : forall l ud, app_ud (fold_left udcalc1 l ud) X = app_ud ud (flows l X)).
  { induction l as [|i l IH]; intros ud; cbn [fold_left flows fold_right]; auto. rewrite IH, udcalc1_flow. reflexivity. }
  rewrite H. unfold app_ud. cbn [fst snd]. apply bset_ext. intros r. rewrite has_union, has_diff, !has_0. now rewrite andb_true_r, orb_false_r.
Qed.

Definition unions (ins : list bset) (l : list nat) (old : bset) : bset := fold_left (fun acc j => bsunion acc (nth j ins 0%N)) l old.
Lemma has_unions ins l : forall old r, bshas (unions ins l old) r = bshas old r || existsb (fun j => bshas (nth j ins 0%N) r) l.
Proof.
  unfold unions. induction l as [|x l IH]; intros old r; cbn [fold_left existsb]; [now rewrite orb_false_r|].
  rewrite IH, has_union. now rewrite orb_assoc.
Qed.

Lemma live_block_eq p ins outs ch i : live_block p (ins, outs, ch) i =
  match blk p i with
  | None => (ins, outs, ch)
  | Some b => let out := unions ins (succs b) (nth i outs 0%N) in
      (upd ins i (flows (il b) out), upd outs i out, ch || negb (bseq (nth i outs 0%N) out))
  end.
Proof.
  unfold live_block. destruct (blk p i) as [b|]; auto. rewrite <- udcalc_flows. unfold app_ud, unions.
  destruct (udcalc b) as [us df]. reflexivity.
Qed.

Lemma blk_lt p b bb : blk p b = Some bb -> b < length (blocks p).
Proof. unfold blk. intros H. destruct (Nat.lt_ge_cases b (length (blocks p))); auto. rewrite nth_overflow in H; auto; discriminate. Qed.

Section Live.
Variable p : prog.
Hypothesis W : wf_prog p.
Notation n := (length (blocks p)).

Lemma at_in b k i : insn_at p (b, k) i -> in_prog p i.
Proof. intros (bb & H & E). exists b, bb. split; auto. eapply nth_error_In; eauto. Qed.
Lemma at_uses b k i r : insn_at p (b, k) i -> In r (uses i) <-> reads i r.
Proof. intros H. apply uses_reads, (wf_nofix p); auto. eapply at_in; eauto. Qed.
Lemma at_defs b k i r : insn_at p (b, k) i -> In r (defs i) <-> writes i r.
Proof. intros H. apply defs_writes, (wf_nofix p); auto. eapply at_in; eauto. Qed.

(* ---------- everything reported is live ---------- *)

Definition sound (ins outs : list bset) : Prop :=
  forall b bb, blk p b = Some bb ->
    (forall r, bshas (nth b ins 0%N) r = true -> Live p r (b, 0)) /\
    (forall r, bshas (nth b outs 0%N) r = true -> Live p r (b, length (il bb))).

Lemma flows_sound b bb X : blk p b = Some bb -> (forall r, bshas X r = true -> Live p r (b, length (il bb))) ->
  forall k, k <= length (il bb) -> forall r, bshas (flows (skipn k (il bb)) X) r = true -> Live p r (b, k).
Proof.
  intros Hb HX k. remember (length (il bb) - k) as m. revert k Heqm. induction m as [|m IH]; intros k E Hk r H.
  - rewrite skipn_all2 in H by lia. cbn in H. replace k with (length (il bb)) by lia. auto.
  - destruct (nth_error (il bb) k) as [i|] eqn:Ei; [|apply nth_error_None in Ei; lia].
    assert (Sk : skipn k (il bb) = i :: skipn (S k) (il bb)).
    { clear - Ei. revert k Ei. induction (il bb) as [|x l IH]; intros [|k] E; cbn in E; try discriminate.
      - now inversion E. - cbn [skipn]. rewrite (IH k) by auto. reflexivity. }
    rewrite Sk in H. cbn [flows fold_right] in H. rewrite has_flow in H.
    assert (A : insn_at p (b, k) i) by (exists bb; auto).
    apply orb_true_iff in H as [H|H].
    + apply existsb_eqb in H. apply (live_read p r (b, k) i A). now apply (at_uses b k).
    + apply andb_true_iff in H as [H1 H2]. apply negb_true_iff, existsb_eqb_f in H2.
      apply (Ra_Spec.live_pass p r b k i A). * intros Hw. apply H2. now apply (at_defs b k).
      * apply IH; auto; lia.
Qed.

Lemma live_block_sound ins outs ch i ins' outs' ch' : length ins = n -> length outs = n -> sound ins outs ->
  live_block p (ins, outs, ch) i = (ins', outs', ch') -> length ins' = n /\ length outs' = n /\ sound ins' outs'.
Proof.
  intros L1 L2 S E. rewrite live_block_eq in E. destruct (blk p i) as [bb|] eqn:Hb; [|inversion E; subst; auto].
  pose proof (blk_lt p i bb Hb) as Hi. cbv zeta in E. set (out := unions ins (succs bb) (nth i outs 0%N)) in *.
  assert (HO : forall r, bshas out r = true -> Live p r (i, length (il bb))).
  { intros r H. unfold out in H. rewrite has_unions in H. apply orb_true_iff in H as [H|H].
    - now apply (S i bb Hb).
    - apply existsb_exists in H as (s & Hs & H). pose proof (wf_succ p W i bb s Hb Hs) as Hn.
      destruct (blk p s) as [bs|] eqn:Es; [|congruence].
      apply (live_edge p r i bb s); auto; [congruence|]. now apply (S s bs Es). }
  injection E as <- <- <-. rewrite !upd_length. repeat split; auto.
  - intros r. rewrite nth_upd, L1. destruct (Nat.eqb_spec i b) as [->|N]; cbn [andb].
    + apply Nat.ltb_lt in Hi. rewrite Hi. rewrite Hb in H. injection H as <-.
      intros H. apply (flows_sound b bb out Hb HO 0); auto. lia.
    + apply (S b bb0 H).
  - intros r. rewrite nth_upd, L2. destruct (Nat.eqb_spec i b) as [->|N]; cbn [andb].
    + apply Nat.ltb_lt in Hi. rewrite Hi. rewrite Hb in H. injection H as <-. auto.
    + apply (S b bb0 H).
Qed.

Lemma fold_sound l : forall ins outs ch ins' outs' ch', length ins = n -> length outs = n -> sound ins outs ->
  fold_left (live_block p) l (ins, outs, ch) = (ins', outs', ch') -> length ins' = n /\ length outs' = n /\ sound ins' outs'.
Proof.
  induction l as [|x l IH]; intros ins outs ch ins' outs' ch' L1 L2 S E; cbn [fold_left] in E; [inversion E; subst; auto|].
  destruct (live_block p (ins, outs, ch) x) as [[i1 o1] c1] eqn:E1.
  destruct (live_block_sound _ _ _ _ _ _ _ L1 L2 S E1) as (A & B & C). exact (IH _ _ _ _ _ _ A B C E).
Qed.
Lemma iter_sound fuel : forall ins outs i o, length ins = n -> length outs = n -> sound ins outs ->
  live_iter fuel p ins outs = Some (i, o) -> length i = n /\ length o = n /\ sound i o.
Proof.
  induction fuel as [|fuel IH]; intros ins outs i o L1 L2 S E; cbn [live_iter] in E; [discriminate|].
  unfold live_pass in E. destruct (fold_left _ _ _) as [[i1 o1] c1] eqn:E1.
  destruct (fold_sound _ _ _ _ _ _ _ L1 L2 S E1) as (A & B & C).
  destruct c1; [exact (IH _ _ _ _ A B C E)|]. injection E as <- <-. auto.
Qed.

Lemma nth_zeros i m : nth i (repeat 0%N m) 0%N = 0%N.
Proof. revert i; induction m as [|m IH]; intros [|i]; cbn; auto. Qed.
Lemma sound_init : sound (repeat 0%N n) (repeat 0%N n).
Proof. intros b bb _. split; intros r; rewrite nth_zeros, has_0; discriminate. Qed.

(* ---------- everything live is reported ---------- *)

(* the equation livein = transfer liveout holds for block i *)
Definition eqn (ins outs : list bset) (i : nat) : Prop :=
  forall bb, blk p i = Some bb -> nth i ins 0%N = flows (il bb) (nth i outs 0%N).

Lemma live_block_eqn ins outs ch i ins' outs' ch' : length ins = n -> length outs = n ->
  live_block p (ins, outs, ch) i = (ins', outs', ch') ->
  length ins' = n /\ length outs' = n /\ eqn ins' outs' i /\ (forall j, eqn ins outs j -> eqn ins' outs' j) /\
  (forall j, j <> i -> nth j ins' 0%N = nth j ins 0%N /\ nth j outs' 0%N = nth j outs 0%N).
Proof.
  intros L1 L2 E. rewrite live_block_eq in E. destruct (blk p i) as [bb|] eqn:Hb.
  - pose proof (blk_lt p i bb Hb) as Hi. cbv zeta in E. injection E as <- <- <-. rewrite !upd_length.
    assert (X : eqn (upd ins i (flows (il bb) (unions ins (succs bb) (nth i outs 0%N)))) (upd outs i (unions ins (succs bb) (nth i outs 0%N))) i).
    { intros b Hb'. rewrite Hb in Hb'. injection Hb' as <-. rewrite !nth_upd_same by lia. reflexivity. }
    repeat split; auto; try (rewrite nth_upd_other; auto; fail).
    intros j Hj. destruct (Nat.eq_dec i j) as [<-|N]; auto.
    intros b Hb'. rewrite !nth_upd_other by auto. auto.
  - injection E as <- <- <-. repeat split; auto. intros b Hb'. congruence.
Qed.
Lemma fold_eqn l : forall ins outs ch ins' outs' ch', length ins = n -> length outs = n ->
  fold_left (live_block p) l (ins, outs, ch) = (ins', outs', ch') ->
  length ins' = n /\ length outs' = n /\ forall j, (eqn ins outs j \/ In j l) -> eqn ins' outs' j.
Proof.
  induction l as [|x l IH]; intros ins outs ch ins' outs' ch' L1 L2 E; cbn [fold_left] in E.
  - injection E as <- <- <-. repeat split; auto. intros j [H|[]]; auto.
  - destruct (live_block p (ins, outs, ch) x) as [[i1 o1] c1] eqn:E1.
    destruct (live_block_eqn _ _ _ _ _ _ _ L1 L2 E1) as (A & B & C & D & _).
    destruct (IH _ _ _ _ _ _ A B E) as (A' & B' & C'). repeat split; auto.
    intros j [H|[<-|H]]; apply C'; auto.
Qed.

(* the changed flag, once set, stays set *)
Lemma changed_stays l : forall ins outs ins' outs' ch', fold_left (live_block p) l (ins, outs, true) = (ins', outs', ch') -> ch' = true.
Proof.
  induction l as [|x l IH]; intros ins outs ins' outs' ch' E; cbn [fold_left] in E; [congruence|].
  rewrite live_block_eq in E. destruct (blk p x); eauto.
Qed.
Lemma upd_nop (A : Type) (l : list A) i x d : nth i l d = x -> upd l i x = l.
Proof. intros <-. apply upd_same. Qed.

(* a pass over blocks satisfying their equations that reports no change changes nothing *)
Lemma pass_same l : forall ins outs ins' outs', length ins = n -> length outs = n ->
  (forall j, eqn ins outs j) -> fold_left (live_block p) l (ins, outs, false) = (ins', outs', false) ->
  ins' = ins /\ outs' = outs /\
  forall i bb s, In i l -> blk p i = Some bb -> In s (succs bb) -> sub (nth s ins 0%N) (nth i outs 0%N).
Proof.
  induction l as [|x l IH]; intros ins outs ins' outs' L1 L2 Q E; cbn [fold_left] in E.
  - injection E as <- <-. repeat split; auto. intros i bb s [].
  - rewrite live_block_eq in E. destruct (blk p x) as [bb|] eqn:Hb.
    + cbv zeta in E. set (out := unions ins (succs bb) (nth x outs 0%N)) in *.
      destruct (bseq (nth x outs 0%N) out) eqn:Eq; [|cbn [orb negb] in E; apply changed_stays in E; discriminate].
      apply N.eqb_eq in Eq. cbn [orb negb] in E.
      rewrite (upd_nop _ outs x out 0%N) in E by auto.
      rewrite (upd_nop _ ins x _ 0%N) in E by (rewrite (Q x bb Hb), Eq; reflexivity).
      destruct (IH _ _ _ _ L1 L2 Q E) as (A & B & C). repeat split; auto.
      intros i b s [<-|Hi] Hb' Hs; [|eapply C; eauto].
      rewrite Hb in Hb'. injection Hb' as <-. intros r Hr. rewrite Eq. unfold out. rewrite has_unions.
      apply orb_true_iff. right. apply existsb_exists. eauto.
    + destruct (IH _ _ _ _ L1 L2 Q E) as (A & B & C). repeat split; auto.
      intros i b s [<-|Hi] Hb' Hs; [congruence|eapply C; eauto].
Qed.

Definition stable (ins outs : list bset) : Prop :=
  (forall j, eqn ins outs j) /\
  forall i bb s, blk p i = Some bb -> In s (succs bb) -> sub (nth s ins 0%N) (nth i outs 0%N).

Lemma iter_stable fuel : forall ins outs i o, length ins = n -> length outs = n -> (forall j, eqn ins outs j) ->
  live_iter fuel p ins outs = Some (i, o) -> stable i o.
Proof.
  induction fuel as [|fuel IH]; intros ins outs i o L1 L2 Q E; cbn [live_iter] in E; [discriminate|].
  unfold Ra_Model.live_pass in E. destruct (fold_left _ _ _) as [[i1 o1] c1] eqn:E1.
  destruct c1.
  - destruct (fold_eqn _ _ _ _ _ _ _ L1 L2 E1) as (A & B & C). apply (IH i1 o1 i o A B); auto.
  - destruct (pass_same _ _ _ _ _ L1 L2 Q E1) as (-> & -> & C). injection E as <- <-. split; auto.
    intros x bb s Hb Hs. apply (C x bb s); auto. apply -> in_rev. apply in_seq. pose proof (blk_lt p x bb Hb). lia.
Qed.

(* the first pass reports a change when control goes forward into a block that needs a register *)
Lemma flows_first b bb X r : blk p b = Some bb ->
  forall k i, nth_error (il bb) k = Some i -> reads i r -> (forall k' i', k' < k -> insn_at p (b, k') i' -> ~ writes i' r) ->
  bshas (flows (il bb) X) r = true.
Proof.
  intros Hb k i Hi Hr Hn.
  assert (G : forall m l, (forall j, nth_error l j = nth_error (il bb) (m + j)) -> m <= k -> bshas (flows l X) r = true).
  { intros m l. remember (k - m) as q. revert m l Heqq. induction q as [|q IH]; intros m l Eq Hl Hm.
    - assert (m = k) by lia. subst m. destruct l as [|x l]; [specialize (Hl 0); cbn in Hl; rewrite Nat.add_0_r in Hl; congruence|].
      pose proof (Hl 0) as H0. rewrite Nat.add_0_r in H0. cbn [nth_error] in H0. rewrite Hi in H0. injection H0 as ->.
      cbn [flows fold_right]. rewrite has_flow. apply orb_true_iff. left. apply existsb_eqb. apply (at_uses b k); auto. exists bb; auto.
    - destruct l as [|x l].
      + specialize (Hl (k - m)). replace (m + (k - m)) with k in Hl by lia. rewrite Hi in Hl. destruct (k - m); discriminate.
      + cbn [flows fold_right]. rewrite has_flow. apply orb_true_iff. right.
        assert (Hx : nth_error (il bb) m = Some x) by (specialize (Hl 0); rewrite Nat.add_0_r in Hl; now rewrite <- Hl).
        change (fold_right flow X l) with (flows l X). rewrite (IH (S m) l); [|lia| |lia].
        * cbn [andb]. apply negb_true_iff, existsb_eqb_f. intros Hd. apply (Hn m x); [lia|exists bb; auto|].
          apply (at_defs b m x); auto. exists bb; auto.
        * intros j. specialize (Hl (S j)). cbn [nth_error] in Hl. rewrite Hl. f_equal. lia. }
  apply (G 0); auto. lia.
Qed.

Lemma fold_other l : forall ins outs ch ins' outs' ch' j, length ins = n -> length outs = n -> ~ In j l ->
  fold_left (live_block p) l (ins, outs, ch) = (ins', outs', ch') ->
  nth j ins' 0%N = nth j ins 0%N /\ nth j outs' 0%N = nth j outs 0%N.
Proof.
  induction l as [|x l IH]; intros ins outs ch ins' outs' ch' j L1 L2 Hj E; cbn [fold_left] in E; [inversion E; subst; auto|].
  destruct (live_block p (ins, outs, ch) x) as [[i1 o1] c1] eqn:E1.
  destruct (live_block_eqn _ _ _ _ _ _ _ L1 L2 E1) as (A & B & _ & _ & D).
  destruct (IH _ _ _ _ _ _ j A B (fun H => Hj (or_intror H)) E) as [-> ->].
  apply D. intros ->. apply Hj. now left.
Qed.

Lemma first_pass ins outs ch : forward_need p ->
  live_pass p (repeat 0%N n) (repeat 0%N n) = (ins, outs, ch) -> ch = true.
Proof.
  intros (b & bb & s & r & Hb & Hs & Hlt & k & i & Hat & Hr & Hn) E. unfold Ra_Model.live_pass in E.
  destruct Hat as (sb & Hsb & Hi). cbn [fst snd] in *.
  pose proof (blk_lt p s sb Hsb) as Lt.
  (* the order is n-1 .. s+1, s, s-1 .. b+1, b, b-1 .. 0 *)
  assert (O : rev (seq 0 n) = rev (seq (S s) (n - S s)) ++ s :: rev (seq (S b) (s - S b)) ++ b :: rev (seq 0 b)).
  { assert (Q : seq 0 n = seq 0 b ++ b :: seq (S b) (s - S b) ++ s :: seq (S s) (n - S s)).
    { assert (En : n = b + S ((s - S b) + S (n - S s))) by lia. rewrite En at 1. rewrite seq_app.
      cbn [Nat.add]. change (seq b (S (s - S b + S (n - S s)))) with (b :: seq (S b) (s - S b + S (n - S s))).
      rewrite seq_app. replace (S b + (s - S b)) with s by lia. reflexivity. }
    rewrite Q, rev_app_distr. cbn [rev]. rewrite rev_app_distr. cbn [rev]. rewrite <- !app_assoc. reflexivity. }
  assert (N1 : ~ In s (rev (seq (S b) (s - S b)))) by (rewrite <- in_rev, in_seq; lia).
  assert (N2 : ~ In b (rev (seq (S b) (s - S b)))) by (rewrite <- in_rev, in_seq; lia).
  assert (N3 : ~ In b (rev (seq (S s) (n - S s)))) by (rewrite <- in_rev, in_seq; lia).
  rewrite O in E. clear O. rewrite fold_left_app in E.
  destruct (fold_left _ (rev (seq (S s) _)) _) as [[i1 o1] c1] eqn:E1.
  assert (Z : length (repeat 0%N n) = n) by apply repeat_length.
  destruct (fold_eqn _ _ _ _ _ _ _ Z Z E1) as (A1 & B1 & _).
  cbn [fold_left] in E. destruct (live_block p (i1, o1, c1) s) as [[i2 o2] c2] eqn:E2.
  destruct (live_block_eqn _ _ _ _ _ _ _ A1 B1 E2) as (A2 & B2 & _ & _ & D2).
  assert (R2 : bshas (nth s i2 0%N) r = true).
  { rewrite live_block_eq, Hsb in E2. injection E2 as <- <- <-. rewrite nth_upd_same by lia.
    eapply flows_first; eauto. }
  rewrite fold_left_app in E. destruct (fold_left _ (rev (seq (S b) _)) _) as [[i3 o3] c3] eqn:E3.
  destruct (fold_eqn _ _ _ _ _ _ _ A2 B2 E3) as (A3 & B3 & _).
  destruct (fold_other _ _ _ _ _ _ _ s A2 B2 N1 E3) as [Q3 _].
  destruct (fold_other _ _ _ _ _ _ _ b A2 B2 N2 E3) as [_ Q3b].
  destruct (D2 b ltac:(lia)) as [_ Q2b].
  destruct (fold_other _ _ _ _ _ _ _ b Z Z N3 E1) as [_ Q1b].
  cbn [fold_left] in E. rewrite live_block_eq, Hb in E. cbv zeta in E.
  assert (Ne : bseq (nth b o3 0%N) (unions i3 (succs bb) (nth b o3 0%N)) = false).
  { destruct (bseq _ _) eqn:X; auto. apply N.eqb_eq in X. exfalso.
    assert (Y : bshas (unions i3 (succs bb) (nth b o3 0%N)) r = true).
    { rewrite has_unions. apply orb_true_iff. right. apply existsb_exists. exists s. split; auto. now rewrite Q3. }
    rewrite <- X, Q3b, Q2b, Q1b, nth_zeros, has_0 in Y. discriminate. }
  rewrite Ne in E. cbn [negb] in E. rewrite orb_true_r in E. eapply changed_stays; eauto.
Qed.

Lemma liveness_stable fuel ins outs : forward_need p -> liveness fuel p = Some (ins, outs) -> stable ins outs.
Proof.
  intros F E. unfold liveness in E. destruct fuel as [|fuel]; cbn [live_iter] in E; [discriminate|].
  destruct (Ra_Model.live_pass _ _ _) as [[i1 o1] c1] eqn:E1. pose proof (first_pass _ _ _ F E1) as ->.
  unfold Ra_Model.live_pass in E1. assert (Z : length (repeat 0%N n) = n) by apply repeat_length.
  destruct (fold_eqn _ _ _ _ _ _ _ Z Z E1) as (A & B & C).
  apply (iter_stable fuel i1 o1 ins outs A B); auto. intros j. destruct (Nat.lt_ge_cases j n) as [H|H].
  - apply C. right. apply -> in_rev. apply in_seq. lia.
  - intros bb Hb. apply blk_lt in Hb. lia.
Qed.

Section Complete.
Variables ins outs : list bset.
Hypothesis S : stable ins outs.

Definition at_point (pt : point) : bset :=
  match blk p (fst pt) with Some b => flows (skipn (snd pt) (il b)) (nth (fst pt) outs 0%N) | None => 0%N end.

Lemma skipn_nth (A : Type) (l : list A) k x : nth_error l k = Some x -> skipn k l = x :: skipn (Datatypes.S k) l.
Proof.
  revert k. induction l as [|y l IH]; intros [|k] E; cbn in E; try discriminate.
  - now inversion E. - cbn [skipn]. rewrite (IH k) by auto. reflexivity.
Qed.

Lemma at_point_step b k i : insn_at p (b, k) i -> at_point (b, k) = flow i (at_point (b, Datatypes.S k)).
Proof.
  intros (bb & Hb & Hi). cbn [fst snd] in *. unfold at_point. cbn [fst snd]. rewrite Hb, (skipn_nth _ _ _ _ Hi). reflexivity.
Qed.

Lemma live_complete r pt : Live p r pt -> bshas (at_point pt) r = true.
Proof.
  intros H. induction H as [[b k] i A R|b k i A N L IH|b bb s Hb Hs Hn L IH].
  - rewrite (at_point_step b k i A), has_flow. apply orb_true_iff. left. apply existsb_eqb. now apply (at_uses b k).
  - rewrite (at_point_step b k i A), has_flow. apply orb_true_iff. right. rewrite IH. cbn [andb].
    apply negb_true_iff, existsb_eqb_f. intros D. apply N. now apply (at_defs b k).
  - unfold at_point in *. cbn [fst snd] in *. rewrite Hb, skipn_all. cbn [flows fold_right].
    destruct (blk p s) as [sb|] eqn:Es; [|congruence]. cbn [skipn] in IH. destruct S as [Q E].
    rewrite <- (Q s sb Es) in IH. exact (E b bb s Hb Hs r IH).
Qed.
End Complete.

Theorem liveness_exact fuel ins outs : forward_need p -> liveness fuel p = Some (ins, outs) ->
  forall b bb, blk p b = Some bb ->
   (forall r, bshas (nth b ins 0%N) r = true <-> Live p r (b, 0)) /\
   (forall r, bshas (nth b outs 0%N) r = true <-> Live p r (b, length (il bb))) /\
   (forall k r, k <= length (il bb) -> bshas (flows (skipn k (il bb)) (nth b outs 0%N)) r = true <-> Live p r (b, k)).
Proof.
  intros F E b bb Hb. pose proof (liveness_stable _ _ _ F E) as S.
  assert (Z : length (repeat 0%N n) = n) by apply repeat_length.
  destruct (iter_sound _ _ _ _ _ Z Z sound_init E) as (A & B & C). destruct (C b bb Hb) as [C1 C2].
  assert (P : forall k r, k <= length (il bb) -> bshas (flows (skipn k (il bb)) (nth b outs 0%N)) r = true <-> Live p r (b, k)).
  { intros k r Hk. split.
    - apply (flows_sound b bb _ Hb C2); auto.
    - intros L. pose proof (live_complete ins outs S r _ L) as H. unfold at_point in H. cbn [fst snd] in H. now rewrite Hb in H. }
  repeat split; auto; try apply P; auto.
  - intros L. destruct S as [Q _]. rewrite (Q b bb Hb). apply (P 0 r); auto. lia.
  - intros L. apply P in L; auto. now rewrite skipn_all in L.
Qed.

(* ---------- termination ---------- *)

Definition card (s : bset) : nat := length (members (nregs p) s).
Definition bounded (s : bset) := forall j, bshas s j = true -> j < nregs p.
Definition total (l : list bset) : nat := fold_right (fun s m => card s + m) 0 l.

Lemma card_le s : card s <= nregs p.
Proof.
  unfold card, Cfg_Model.members. rewrite <- (seq_length (nregs p) 0) at 2. induction (seq 0 (nregs p)) as [|x l IH]; cbn; auto.
  destruct (bshas s x); cbn; lia.
Qed.
Lemma card_sub a b : sub a b -> card a <= card b.
Proof. intros H. unfold card, Cfg_Model.members. apply filter_length_sub. intros x _. apply H. Qed.
Lemma card_lt a b : sub a b -> bounded b -> bseq a b = false -> card a < card b.
Proof.
  intros H Hb Hne. assert (exists j, bshas a j = false /\ bshas b j = true) as (j & Ha & Hj).
  { destruct (existsb (fun j => negb (bshas a j) && bshas b j) (seq 0 (nregs p))) eqn:E.
    - apply existsb_exists in E as (j & _ & E). apply andb_true_iff in E as [E1 E2]. apply negb_true_iff in E1. eauto.
    - exfalso. apply N.eqb_neq in Hne. apply Hne. apply bset_ext_iff. intros j. split; [apply H|]. intros Hj.
      destruct (bshas a j) eqn:Ea; auto. exfalso.
      assert (existsb (fun j => negb (bshas a j) && bshas b j) (seq 0 (nregs p)) = true); [|congruence].
      apply existsb_exists. exists j. rewrite in_seq, Ea, Hj. specialize (Hb j Hj). split; auto. lia. }
  unfold card, Cfg_Model.members. apply (filter_length_lt _ _ _ _ j); [intros x _; apply H| |exact Ha|exact Hj].
  apply in_seq. specialize (Hb j Hj). lia.
Qed.
Lemma total_upd l i x : i < length l -> card (nth i l 0%N) <= card x -> total l <= total (upd l i x) /\
  (card (nth i l 0%N) < card x -> total l < total (upd l i x)).
Proof.
  unfold total. revert i; induction l as [|y l IH]; intros [|i] Hi H; cbn [upd nth fold_right length] in *; try lia.
  destruct (IH i ltac:(lia) H). lia.
Qed.
Lemma total_le l : total l <= length l * nregs p.
Proof. unfold total. induction l as [|x l IH]; cbn [fold_right length]; auto. pose proof (card_le x). lia. Qed.

Definition binv (ins outs : list bset) := length ins = n /\ length outs = n /\
  (forall i, bounded (nth i ins 0%N)) /\ (forall i, bounded (nth i outs 0%N)).

Lemma flows_bounded b bb X : blk p b = Some bb -> bounded X -> bounded (flows (il bb) X).
Proof.
  intros Hb HX. assert (G : forall l, incl l (il bb) -> bounded (flows l X)).
  { induction l as [|i l IH]; intros Hl; cbn [flows fold_right]; auto. intros r Hr. rewrite has_flow in Hr.
    apply orb_true_iff in Hr as [Hr|Hr].
    - apply existsb_eqb in Hr. assert (Hi : in_prog p i) by (exists b, bb; split; auto; apply Hl; now left).
      apply uses_reads in Hr; [|eapply wf_nofix; eauto]. eapply (wf_regs p W); eauto. now apply reads_mentions.
    - apply andb_true_iff in Hr as [Hr _]. apply IH; auto. intros x Hx; apply Hl; now right. }
  apply G. now intros x.
Qed.

Lemma live_block_grows ins outs ch i ins' outs' ch' : binv ins outs -> live_block p (ins, outs, ch) i = (ins', outs', ch') ->
  binv ins' outs' /\ total outs <= total outs' /\ (ch = false -> ch' = true -> total outs < total outs').
Proof.
  intros (L1 & L2 & B1 & B2) E. rewrite live_block_eq in E. destruct (blk p i) as [bb|] eqn:Hb.
  - pose proof (blk_lt p i bb Hb) as Hi. cbv zeta in E. set (out := unions ins (succs bb) (nth i outs 0%N)) in *.
    assert (BO : bounded out).
    { intros r H. unfold out in H. rewrite has_unions in H. apply orb_true_iff in H as [H|H]; [now apply (B2 i)|].
      apply existsb_exists in H as (s & _ & H). now apply (B1 s). }
    assert (SO : sub (nth i outs 0%N) out) by (intros r H; unfold out; rewrite has_unions, H; reflexivity).
    destruct (total_upd outs i out ltac:(lia) (card_sub _ _ SO)) as [T1 T2].
    injection E as <- <- <-. unfold binv. rewrite !upd_length. repeat split; auto.
    + intros j. rewrite nth_upd. destruct (_ && _); auto. eapply flows_bounded; eauto.
    + intros j. rewrite nth_upd. destruct (_ && _); auto.
    + intros -> C. cbn [orb] in C. apply negb_true_iff in C. apply T2, card_lt; auto.
  - injection E as <- <- <-. repeat split; auto. congruence.
Qed.
Lemma fold_grows l : forall ins outs ch ins' outs' ch', binv ins outs ->
  fold_left (live_block p) l (ins, outs, ch) = (ins', outs', ch') ->
  binv ins' outs' /\ total outs <= total outs' /\ (ch = false -> ch' = true -> total outs < total outs').
Proof.
  induction l as [|x l IH]; intros ins outs ch ins' outs' ch' H E; cbn [fold_left] in E.
  - injection E as <- <- <-. repeat split; auto; try apply H. congruence.
  - destruct (live_block p (ins, outs, ch) x) as [[i1 o1] c1] eqn:E1.
    destruct (live_block_grows _ _ _ _ _ _ _ H E1) as (A & B & C). destruct (IH _ _ _ _ _ _ A E) as (A' & B' & C').
    split; auto. split; [lia|]. intros -> ->. destruct c1; [specialize (C eq_refl eq_refl); lia|specialize (C' eq_refl eq_refl); lia].
Qed.
Lemma iter_ends fuel : forall ins outs, binv ins outs -> n * nregs p < total outs + fuel ->
  exists i o, live_iter fuel p ins outs = Some (i, o).
Proof.
  induction fuel as [|fuel IH]; intros ins outs H Hf.
  - exfalso. pose proof (total_le outs) as T. destruct H as (_ & L & _). rewrite L in T. lia.
  - cbn [live_iter]. unfold Ra_Model.live_pass. destruct (fold_left _ _ _) as [[i1 o1] c1] eqn:E1.
    destruct (fold_grows _ _ _ _ _ _ _ H E1) as (A & B & C). destruct c1; [|eauto].
    specialize (C eq_refl eq_refl). apply IH; auto. lia.
Qed.
Theorem liveness_ends fuel : n * nregs p < fuel -> exists r, liveness fuel p = Some r.
Proof.
  intros H. destruct (iter_ends fuel (repeat 0%N n) (repeat 0%N n)) as (i & o & E); [|lia|exists (i, o); exact E].
  unfold binv. rewrite repeat_length. repeat split; auto; intros i j; rewrite nth_zeros, has_0; discriminate.
Qed.
End Live.
