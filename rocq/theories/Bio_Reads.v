(* Every call of the reading interface on a device without faults, and the byte-wise calls on any device. *)
From Verif Require Import Base ListX Utf_Model Utf_Spec Utf_Proofs Bio_Model Bio_Spec Bio_Calls Bio_Proofs Bio_Read Bio_Line Bio_Delim.
From Coq Require Import NArith Lia List.
Import ListNotations.
Open Scope nat_scope.

Lemma Bufsz_big : 600 < Bufsz.
Proof. apply Nat.ltb_lt. vm_compute. reflexivity. Qed.
#[global] Opaque Bufsz.

Definition reader (f : file) (s : list N) : Prop :=
  wf f /\ rd f = true /\ length (rbuf f) = Bufsz /\ calm f /\ stream f = s /\ Forall isbyte s.
Lemma reader_adv f s t f' : reader f (s ++ t) -> adv f s f' -> calm f' -> reader f' t.
Proof.
  intros (W & R & L & C & S & B) (A1 & A2 & A3 & A4 & A5 & A6 & A7 & A8) C'. unfold reader. rewrite S in A2.
  apply app_inv_head in A2. rewrite Forall_app in B. repeat split; try apply A1; try apply C'; try congruence; apply B.
Qed.
Lemma reader_kept f s f' : reader f s -> kept f f' -> calm f' -> reader f' s.
Proof. intros R K C. apply (reader_adv f [] s f'); auto. apply kept_adv; auto. Qed.

Definition shortdelim (o : rop) : Prop :=
  match o with OReadto d | OReadterm d | OSkipto d => length d < Bufsz | _ => True end.

Lemma readdelim_ne f d m : d <> [] -> readdelim f d m = readdelim_loop (S (S (avail f))) f d m [].
Proof. destruct d; [congruence|reflexivity]. Qed.
Lemma absent_ne d s : absent d s -> d <> [].
Proof. intros H ->. apply (H 0). exists s. reflexivity. Qed.
Lemma absent_nil d : d <> [] -> absent d [].
Proof. intros H i (b & X). destruct i; destruct d; try discriminate; congruence. Qed.
Lemma call_reads f s o a s' : reader f s -> shortdelim o -> reads s o a s' ->
  exists f', call f o = Done (f', a) /\ reader f' s' /\ wr f' = wr f /\ wbuf f' = wbuf f /\ wend f' = wend f /\ data (dv f') = data (dv f).
Proof.
  intros RD SD H. pose proof RD as (W & R & L & C & ST & FB). pose proof Bufsz_big as BB.
  assert (FIN : forall f' u, adv f u f' -> calm f' -> s = u ++ s' ->
    reader f' s' /\ wr f' = wr f /\ wbuf f' = wbuf f /\ wend f' = wend f /\ data (dv f') = data (dv f)).
  { intros f' u A CA E. split; [apply (reader_adv f u); congruence|]. destruct A as (_ & _ & _ & A4 & A5 & A6 & _ & A8). auto. }
  assert (FL : length (stream f) < S (S (avail f))) by (pose proof (stream_len f W); lia).
  inversion H; clear H; subst o a s' ; cbn [call shortdelim] in *.
  - (* getb *) destruct (getb_spec f W R ltac:(lia)) as (f' & r & E & M & Q). destruct (Q C) as (CF & NE). rewrite E. destruct r as [x|e].
    + destruct M as (u & -> & A). assert (X : b = x) by (destruct A as (_ & X & _); rewrite ST in X; clear ST; subst s; cbn in X; congruence). subst x.
      eexists. split; [reflexivity|]. apply (FIN f' [b]); auto.
    + destruct (NE e eq_refl) as (_ & X). rewrite ST in X. clear ST; subst s. cbn in X. lia.
  - destruct (getb_spec f W R ltac:(lia)) as (f' & r & E & M & Q). destruct (Q C) as (CF & NE). rewrite E. destruct r as [x|e].
    + destruct M as (u & -> & A). destruct A as (_ & X & _). rewrite ST in X. clear ST; subst s. discriminate.
    + destruct (NE e eq_refl) as (-> & _). eexists. split; [reflexivity|]. apply (FIN f' []); auto.
  - (* peekb *) destruct (peekb_spec f W ltac:(lia)) as (f' & r & E & K & RO & Q). destruct (Q C) as (CF & NE). rewrite E. destruct r as [x|e].
    + destruct (RO x eq_refl) as (t & X). rewrite ST in X. rewrite <- H0 in X. injection X as -> ->. eexists. split; [reflexivity|].
      apply (FIN f' []); auto. apply kept_adv, K.
    + destruct (NE e eq_refl) as (_ & X). rewrite ST in X. clear ST; subst s. discriminate.
  - destruct (peekb_spec f W ltac:(lia)) as (f' & r & E & K & RO & Q). destruct (Q C) as (CF & NE). rewrite E. destruct r as [x|e].
    + destruct (RO x eq_refl) as (t & X). rewrite ST in X. clear ST; subst s. discriminate.
    + destruct (NE e eq_refl) as (-> & _). eexists. split; [reflexivity|]. apply (FIN f' []); auto. apply kept_adv, K.
  - (* getc *) destruct (getc_spec f c s0 W R ltac:(lia) ltac:(assumption) ltac:(congruence)) as (f' & r & E & M & Q).
    destruct (Q C) as (CF & ->). rewrite E. destruct M as (_ & A). eexists. split; [reflexivity|]. apply (FIN f' (utf8 c)); auto.
  - destruct (getc_eof f W R ltac:(lia) C ltac:(congruence)) as (f' & E & K & CF). rewrite E. eexists. split; [reflexivity|].
    apply (FIN f' []); auto. apply kept_adv, K.
  - (* peekc *) destruct (peekc_spec f c s0 W ltac:(lia) ltac:(assumption) ltac:(congruence)) as (f' & r & E & K & _ & Q).
    destruct (Q C) as (CF & ->). rewrite E. eexists. split; [reflexivity|]. apply (FIN f' []); auto. apply kept_adv, K.
  - destruct (peekc_eof f W ltac:(lia) C ltac:(congruence)) as (f' & E & K & CF). rewrite E. eexists. split; [reflexivity|].
    apply (FIN f' []); auto. apply kept_adv, K.
  - (* read *) destruct (read_spec f 0 W R) as (f' & r & E & M & Q). destruct (Q C) as (CF & ->). rewrite E. eexists. split; [reflexivity|].
    apply (FIN f' []); auto. apply M.
  - destruct (read_spec f n W R) as (f' & r & E & M & Q). destruct (Q C) as (CF & X). rewrite E.
    destruct n as [|n]; [congruence|]. rewrite ST in X. destruct s as [|x s]; [congruence|]. cbn [firstn] in X. subst r.
    eexists. split; [reflexivity|]. apply (FIN f' (x :: firstn n s)); auto; [apply M|]. cbn. rewrite firstn_skipn. reflexivity.
  - destruct (read_spec f n W R) as (f' & r & E & M & Q). destruct (Q C) as (CF & X). rewrite E.
    destruct n as [|n]; [congruence|]. rewrite ST in X. clear ST; subst s. cbn [firstn] in X. subst r.
    eexists. split; [reflexivity|]. apply (FIN f' []); auto.
  - (* readln *) destruct (readln_loop_spec (S (S (avail f))) f [] a0 10%N s0) as (f' & E & CF & A); auto; try congruence; try lia; try (right; reflexivity).
    unfold readln. rewrite E. eexists. split; [reflexivity|]. apply (FIN f' (a0 ++ [10%N])); auto. rewrite <- app_assoc. cbn [app]. congruence.
  - destruct (readln_loop_spec (S (S (avail f))) f [] a0 13%N (10%N :: s0)) as (f' & E & CF & A); auto; try congruence; try lia; try (left; reflexivity).
    unfold readln. rewrite E. eexists. split; [reflexivity|]. apply (FIN f' (a0 ++ [13;10]%N)); auto. rewrite <- app_assoc. cbn [app]. congruence.
  - destruct (readln_loop_spec (S (S (avail f))) f [] a0 13%N s0) as (f' & E & CF & A); auto; try congruence; try lia; try (left; reflexivity).
    unfold readln. rewrite E. eexists. split; [reflexivity|]. replace (hd 0 s0 =? 10)%N with false in A by (symmetry; apply N.eqb_neq; assumption).
    rewrite andb_false_r in A. apply (FIN f' (a0 ++ [13]%N)); auto. rewrite <- app_assoc. cbn [app]. congruence.
  - destruct (readln_loop_last (S (S (avail f))) f []) as (f' & E & CF & A); auto; try congruence; try lia.
    unfold readln. rewrite E. cbn [app]. rewrite ST. subst a0. destruct s as [|x s]; [congruence|].
    eexists. split; [reflexivity|]. apply (FIN f' (x :: s)); auto; [congruence|]. symmetry; apply app_nil_r.
  - destruct (readln_loop_last (S (S (avail f))) f []) as (f' & E & CF & A); auto; try lia.
    { rewrite ST. clear ST; subst s. constructor. }
    unfold readln. rewrite E. cbn [app]. rewrite ST in A |- *. clear ST; subst s. eexists. split; [reflexivity|]. apply (FIN f' []); auto.
  - (* readto *) unfold readto. rewrite readdelim_ne by assumption.
    destruct (readdelim_loop_spec (S (S (avail f))) Read d f [] a0 s0) as (f' & E & CF & A); auto; try congruence; try lia.
    rewrite E. eexists. split; [reflexivity|]. apply (FIN f' (a0 ++ d)); auto. rewrite <- app_assoc. cbn [app]. congruence.
  - unfold readto. match goal with H : absent d _ |- _ => pose proof (absent_ne _ _ H) as ND end. rewrite readdelim_ne by assumption.
    destruct (readdelim_loop_last (S (S (avail f))) Read d f []) as (f' & E & CF & A); auto; try congruence; try lia; try (rewrite ST; subst a0; assumption).
    rewrite E. cbn [app gotpart]. rewrite ST. subst a0. destruct s as [|y s]; [congruence|].
    eexists. split; [reflexivity|]. apply (FIN f' (y :: s)); auto; [congruence|]. symmetry; apply app_nil_r.
  - unfold readto. rewrite readdelim_ne by assumption.
    destruct (readdelim_loop_last (S (S (avail f))) Read d f []) as (f' & E & CF & A); auto; try congruence; try lia.
    { rewrite ST. clear ST; subst s. apply absent_nil. assumption. }
    rewrite E. cbn [app gotpart]. rewrite ST in A |- *. clear ST; subst s. eexists. split; [reflexivity|]. apply (FIN f' []); auto.
  - (* readterm *) unfold readterm. rewrite readdelim_ne by assumption.
    destruct (readdelim_loop_spec (S (S (avail f))) Keep d f [] a0 s0) as (f' & E & CF & A); auto; try congruence; try lia.
    rewrite E. eexists. split; [reflexivity|]. apply (FIN f' (a0 ++ d)); auto. rewrite <- app_assoc. cbn [app]. congruence.
  - unfold readterm. match goal with H : absent d _ |- _ => pose proof (absent_ne _ _ H) as ND end. rewrite readdelim_ne by assumption.
    destruct (readdelim_loop_last (S (S (avail f))) Keep d f []) as (f' & E & CF & A); auto; try congruence; try lia; try (rewrite ST; subst a0; assumption).
    rewrite E. cbn [app gotpart]. rewrite ST. subst a0. destruct s as [|y s]; [congruence|].
    eexists. split; [reflexivity|]. apply (FIN f' (y :: s)); auto; [congruence|]. symmetry; apply app_nil_r.
  - unfold readterm. rewrite readdelim_ne by assumption.
    destruct (readdelim_loop_last (S (S (avail f))) Keep d f []) as (f' & E & CF & A); auto; try congruence; try lia.
    { rewrite ST. clear ST; subst s. apply absent_nil. assumption. }
    rewrite E. cbn [app gotpart]. rewrite ST in A |- *. clear ST; subst s. eexists. split; [reflexivity|]. apply (FIN f' []); auto.
  - (* skipto *) unfold skipto. rewrite readdelim_ne by assumption.
    destruct (readdelim_loop_spec (S (S (avail f))) Drop d f [] a0 s0) as (f' & E & CF & A); auto; try congruence; try lia.
    rewrite E. eexists. split; [reflexivity|]. apply (FIN f' (a0 ++ d)); auto. rewrite <- app_assoc. cbn [app]. congruence.
  - unfold skipto. match goal with H : absent d _ |- _ => pose proof (absent_ne _ _ H) as ND end. rewrite readdelim_ne by assumption.
    destruct (readdelim_loop_last (S (S (avail f))) Drop d f []) as (f' & E & CF & A); auto; try congruence; try lia; try (rewrite ST; subst a0; assumption).
    rewrite E. cbn [app gotpart]. eexists. split; [reflexivity|]. apply (FIN f' s); auto; [congruence|]. symmetry; apply app_nil_r.
  - (* getle *) unfold getle. destruct (ensureread_spec f (length bs) W ltac:(lia)) as (g & r & E & K & RO & Q). rewrite E. destruct (Q C) as (CG & D).
    destruct D as [[_ [k ->]]|(X & _)]; [|rewrite ST in X; clear ST; subst s; rewrite app_length in X; lia]. specialize (RO k eq_refl).
    assert (Wg : wf g) by apply K. pose proof (adv_setstart g (length bs) Wg RO) as A.
    assert (FH : firstn (length bs) (held g) = bs).
    { rewrite <- (firstn_stream g _ RO). replace (stream g) with (bs ++ s0) by (transitivity (stream f); [congruence|symmetry; apply K]). apply firstn_app_exact. }
    assert (SB : slice (rbuf g) (rstart g) (rstart g + length bs) = bs) by (rewrite take_held by assumption; exact FH).
    rewrite FH in A. assert (AF : adv f bs (setstart g (rstart g + length bs))) by (eapply kept_adv_trans; [exact K|exact A]).
    pose proof (held_length g Wg) as HL. destruct Wg as [W1 W2]. cbn [lift answer_of]. rewrite getle_loop_spec; [|lia|lia|cbn; lia|rewrite SB; assumption].
    rewrite SB. exists (setstart g (rstart g + length bs)). split; [do 3 f_equal; change (256 ^ N.of_nat 0)%N with 1%N; lia|]. apply (FIN _ bs); auto.
  - unfold getle. destruct (ensureread_spec f n W ltac:(lia)) as (g & r & E & K & RO & Q). rewrite E. destruct (Q C) as (CG & D).
    destruct D as [[X _]|(_ & -> & _)]; [rewrite ST in X; subst s0; lia|]. cbn. eexists. split; [reflexivity|]. subst s0. apply (FIN g []); auto. apply kept_adv, K.
  - (* getbe *) unfold getbe. destruct (ensureread_spec f (length bs) W ltac:(lia)) as (g & r & E & K & RO & Q). rewrite E. destruct (Q C) as (CG & D).
    destruct D as [[_ [k ->]]|(X & _)]; [|rewrite ST in X; clear ST; subst s; rewrite app_length in X; lia]. specialize (RO k eq_refl).
    assert (Wg : wf g) by apply K. pose proof (adv_setstart g (length bs) Wg RO) as A.
    assert (FH : firstn (length bs) (held g) = bs).
    { rewrite <- (firstn_stream g _ RO). replace (stream g) with (bs ++ s0) by (transitivity (stream f); [congruence|symmetry; apply K]). apply firstn_app_exact. }
    assert (SB : slice (rbuf g) (rstart g) (rstart g + length bs) = bs) by (rewrite take_held by assumption; exact FH).
    rewrite FH in A. assert (AF : adv f bs (setstart g (rstart g + length bs))) by (eapply kept_adv_trans; [exact K|exact A]).
    pose proof (held_length g Wg) as HL. destruct Wg as [W1 W2]. cbn [lift answer_of]. rewrite (getbe_loop_spec _ _ _ 0); [|lia|lia|cbn; lia|rewrite SB; assumption].
    rewrite SB. exists (setstart g (rstart g + length bs)). split; [do 3 f_equal; lia|]. apply (FIN _ bs); auto.
  - unfold getbe. destruct (ensureread_spec f n W ltac:(lia)) as (g & r & E & K & RO & Q). rewrite E. destruct (Q C) as (CG & D).
    destruct D as [[X _]|(_ & -> & _)]; [rewrite ST in X; subst s0; lia|]. cbn. eexists. split; [reflexivity|]. subst s0. apply (FIN g []); auto. apply kept_adv, K.
Qed.
Lemma calls_reads os : forall f s ans s', reader f s -> Forall shortdelim os -> readsall s os ans s' ->
  exists f', calls f os = Done (f', ans) /\ reader f' s' /\ wr f' = wr f /\ wbuf f' = wbuf f /\ wend f' = wend f /\ data (dv f') = data (dv f).
Proof.
  induction os as [|o os IH]; intros f s ans s' RD SD H; inversion H; subst.
  - exists f. auto 10.
  - inversion SD; subst. destruct (call_reads f s o a s1) as (g & E & RG & G1 & G2 & G3 & G4); auto.
    destruct (IH g s1 ans0 s') as (f' & E' & RF & F1 & F2 & F3 & F4); auto.
    exists f'. cbn [calls]. rewrite E, E'. split; [reflexivity|]. split; [exact RF|]. repeat split; congruence.
Qed.
Lemma mk_reader w dt p evs : quiet (mkdev dt p evs) -> Forall isbyte dt -> reader (mk true w (mkdev dt p evs)) (skipn p dt).
Proof.
  intros Q B. unfold reader, mk, wf, calm, stream, held, rest. cbn. rewrite repeat_length, slice_empty. repeat split; auto; try lia.
  rewrite <- (firstn_skipn p dt) in B. apply Forall_app in B. apply B.
Qed.

(* --- any device: the byte-wise calls neither lose nor repeat a byte --- *)
Definition bytewise (o : rop) : Prop := match o with OGetb | OPeekb | ORead _ => True | _ => False end.
(* the bytes handed out: a peek hands out nothing *)
Definition handed (o : rop) (a : answer) : list N :=
  match o, a with
  | OGetb, AByte b => [b]
  | ORead _, ABytes s => s
  | _, _ => []
  end.
Fixpoint handedall (os : list rop) (ans : list answer) : list N :=
  match os, ans with
  | o :: os, a :: ans => handed o a ++ handedall os ans
  | _, _ => []
  end.
Lemma call_bytewise f o : wf f -> rd f = true -> length (rbuf f) = Bufsz -> bytewise o ->
  exists f' a, call f o = Done (f', a) /\ adv f (handed o a) f' /\
    (forall b, o = OPeekb -> a = AByte b -> exists t, stream f = b :: t).
Proof.
  intros W R L B. pose proof Bufsz_big as BB. destruct o; try contradiction; cbn [call].
  - destruct (getb_spec f W R ltac:(lia)) as (f' & r & E & M & _). rewrite E. destruct r as [x|e].
    + destruct M as (u & -> & A). eexists _, _. split; [reflexivity|]. split; [exact A|discriminate].
    + eexists _, _. split; [reflexivity|]. split; [destruct e; exact M|discriminate].
  - destruct (peekb_spec f W ltac:(lia)) as (f' & r & E & K & RO & _). rewrite E. eexists _, _. split; [reflexivity|].
    split; [apply kept_adv, K|]. intros b _ X. apply RO. destruct r as [x|[]]; cbn in X; congruence.
  - destruct (read_spec f n W R) as (f' & r & E & M & _). rewrite E. destruct r as [x|e].
    + eexists _, _. split; [reflexivity|]. split; [apply M|discriminate].
    + eexists _, _. split; [reflexivity|]. split; [destruct e; exact M|discriminate].
Qed.
Lemma calls_bytewise os : forall f, wf f -> rd f = true -> length (rbuf f) = Bufsz -> Forall bytewise os ->
  exists f' ans, calls f os = Done (f', ans) /\ length ans = length os /\ adv f (handedall os ans) f'.
Proof.
  induction os as [|o os IH]; intros f W R L B.
  - exists f, []. cbn. split; [reflexivity|]. split; [reflexivity|]. apply kept_adv, kept_refl, W.
  - inversion B; subst. destruct (call_bytewise f o) as (g & a & E & A & _); auto.
    destruct A as (A1 & A2 & A3 & A4 & A5 & A6 & A7 & A8). destruct (IH g) as (f' & ans & E' & LA & A'); auto; try congruence.
    exists f', (a :: ans). cbn [calls]. rewrite E, E'. split; [reflexivity|]. split; [cbn; lia|]. cbn [handedall].
    eapply adv_trans; [|exact A']. unfold adv. auto 10.
Qed.
