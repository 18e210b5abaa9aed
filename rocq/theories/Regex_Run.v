(* The interpreter explores exactly the configurations that the program can reach. *)
From Verif Require Import Base Regex_Model Regex_Spec Regex_Comp Regex_Rng Regex_Gen.
Open Scope nat_scope.

Section Run.
Variable isword : list N -> bool.
Variable P : list inst.
Variable s : list N.
Notation cstep := (cstep isword P s).
Notation reach := (reach isword P s).
Notation step := (step isword P s).
Notation stepall := (stepall isword P s).
Notation round := (round isword P s).
Notation rounds := (rounds isword P s).

Lemma bol_bool p : p <= length s -> ((p =? 0) || (nth (p - 1) s 0%N =? 10)%N = true <-> atbol s p).
Proof using s. clear isword P.
  intros L. unfold atbol. rewrite orb_true_iff, Nat.eqb_eq, N.eqb_eq. destruct p as [|j]; [tauto|]. replace (S j - 1) with j by lia.
  split; intros [H|H]; try (left; lia); try discriminate.
  - right. exists j. split; auto. rewrite (nth_error_nth' s 0%N) by lia. congruence.
  - right. destruct H as (k & E & H). injection E as <-. rewrite (nth_error_nth' s 0%N) in H by lia. congruence.
Qed.
Lemma eol_bool p : p <= length s -> ((p =? length s) || (nth p s 0%N =? 10)%N = true <-> ateol s p).
Proof using s. clear isword P.
  intros L. unfold ateol. rewrite orb_true_iff, Nat.eqb_eq, N.eqb_eq. destruct (Nat.eq_dec p (length s)); [tauto|].
  rewrite (nth_error_nth' s 0%N) by lia. split; (intros [H|H]; [auto|right; congruence]).
Qed.
Lemma bow_bool p : (isword (skipn p s) && ((p =? 0) || negb (isword (skipn (prevchar s p) s))) = true <-> atbow isword s p).
Proof.
  unfold atbow, wordat, wordbefore. rewrite andb_true_iff, orb_true_iff, Nat.eqb_eq, negb_true_iff.
  destruct (isword (skipn (prevchar s p) s)); intuition (try lia; try congruence).
Qed.
Lemma eow_bool p : ~ (p = length s /\ p = 0) ->
  ((if (p =? length s) && isword (skipn (prevchar s p) s) then true else (0 <? p) && negb (isword (skipn p s)) && isword (skipn (prevchar s p) s)) = true <-> ateow isword s p).
Proof.
  intros N. unfold ateow, wordat, wordbefore. destruct (isword (skipn (prevchar s p) s)); destruct (isword (skipn p s)); destruct (Nat.eqb_spec p (length s)); destruct (Nat.ltb_spec 0 p); cbn; intuition (try lia; try congruence).
Qed.

Definition soundres (p : nat) (t : thread) (r : sres) : Prop :=
  match r with
  | Consumed t' => cstep (ip t, p, mgroup t) (ip t', p + 1, mgroup t') /\ p < length s
  | Goon t' new => cstep (ip t, p, mgroup t) (ip t', p, mgroup t') /\ forall x, In x new -> cstep (ip t, p, mgroup t) (ip x, p, mgroup x)
  | Matched t' => t' = t /\ exists id, nth_error P (ip t) = Some (Imatch id)
  | Died => (forall c, ~ cstep (ip t, p, mgroup t) c) /\ forall id, nth_error P (ip t) <> Some (Imatch id)
  | Sabort => True
  end.
Lemma step_sound p cur t : p <= length s -> soundres p t (step p cur t).
Proof.
  intros L. unfold step. destruct (nth_error P (ip t)) as [x|] eqn:E; [|exact I]. destruct x; cbn.
  - destruct (nth_error s p) as [b'|] eqn:Eb.
    + destruct (N.eqb_spec b b') as [->|Nb]; cbn.
      * split; [eapply c_byte; eauto|]. apply nth_error_Some. congruence.
      * split; [|congruence]. intros c H. destruct (step_byte _ _ _ _ _ _ _ _ E H). congruence.
    + split; [|congruence]. intros c H. destruct (step_byte _ _ _ _ _ _ _ _ E H). congruence.
  - destruct (nth_error s p) as [b'|] eqn:Eb.
    + destruct (N.ltb_spec b' lo); cbn; [|destruct (N.ltb_spec hi b'); cbn].
      * split; [|congruence]. intros c H'. destruct (step_range _ _ _ _ _ _ _ _ _ E H') as (b & Hb & Hr & _). assert (b = b') by congruence. lia.
      * split; [|congruence]. intros c H'. destruct (step_range _ _ _ _ _ _ _ _ _ E H') as (b & Hb & Hr & _). assert (b = b') by congruence. lia.
      * split; [eapply c_range; eauto|]. apply nth_error_Some. congruence.
    + split; [|congruence]. intros c H'. destruct (step_range _ _ _ _ _ _ _ _ _ E H') as (b & Hb & Hr & _). congruence.
  - destruct (Nat.ltb_spec m 16); [|exact I]. cbn. split; [eapply c_lbra; eauto|intros y []].
  - destruct (Nat.ltb_spec m 16); [|exact I]. cbn. split; [eapply c_rbra; eauto|intros y []].
  - pose proof (bol_bool p L) as B. destruct ((p =? 0) || (nth (p - 1) s 0 =? 10)%N); cbn.
    + split; [eapply c_bol; [eauto|tauto]|intros y []].
    + split; [|congruence]. intros c H. destruct (step_bol _ _ _ _ _ _ _ E H) as [A _]. apply B in A. discriminate.
  - pose proof (eol_bool p L) as B. destruct ((p =? length s) || (nth p s 0 =? 10)%N); cbn.
    + split; [eapply c_eol; [eauto|tauto]|intros y []].
    + split; [|congruence]. intros c H. destruct (step_eol _ _ _ _ _ _ _ E H) as [A _]. apply B in A. discriminate.
  - pose proof (bow_bool p) as B. destruct (isword (skipn p s) && ((p =? 0) || negb (isword (skipn (prevchar s p) s)))); cbn.
    + split; [eapply c_bow; [eauto|tauto]|intros y []].
    + split; [|congruence]. intros c H. destruct (step_bow _ _ _ _ _ _ _ E H) as [A _]. apply B in A. discriminate.
  - destruct ((p =? length s) && (p =? 0)) eqn:Z; [exact I|]. assert (Z' : ~ (p = length s /\ p = 0)) by (intros [-> Z']; rewrite Z', !Nat.eqb_refl in Z; discriminate).
    pose proof (eow_bool p Z') as B. destruct ((p =? length s) && isword (skipn (prevchar s p) s)); cbn; [split; [eapply c_eow; [eauto|tauto]|intros y []]|].
    destruct ((0 <? p) && negb (isword (skipn p s)) && isword (skipn (prevchar s p) s)); cbn.
    + split; [eapply c_eow; [eauto|tauto]|intros y []].
    + split; [|congruence]. intros c H. destruct (step_eow _ _ _ _ _ _ _ E H) as [A _]. apply B in A. discriminate.
  - split; [eapply c_forkl; eauto|]. intros y Iy. destruct cur as [c|]; [destruct (c =? r)|]; cbn in Iy; [destruct Iy| |]; destruct Iy as [<-|[]]; eapply c_forkr; eauto.
  - split; [eapply c_jmp; eauto|intros y []].
  - split; auto. eauto.
Qed.

(* every step of the program is taken or queued, except that a fork back to where the thread started is dropped *)
Lemma step_complete p cur t w p' g' : cstep (ip t, p, mgroup t) (w, p', g') -> p <= length s -> step p cur t <> Sabort ->
  (p' = p + 1 /\ step p cur t = Consumed (mkthr w g')) \/
  (p' = p /\ exists t' new, step p cur t = Goon t' new /\ (t' = mkthr w g' \/ In (mkthr w g') new \/ cur = Some w)).
Proof.
  intros H L Na. pose proof (step_sound p cur t L) as So.
  inversion H; subst; unfold step in *; match goal with E : nth_error P _ = Some _ |- _ => rewrite E in * end.
  - left. split; auto. match goal with E : nth_error s p = Some _ |- _ => rewrite E end. rewrite N.eqb_refl. reflexivity.
  - left. split; auto. match goal with E : nth_error s p = Some _ |- _ => rewrite E end.
    destruct (N.ltb_spec b lo); [lia|]. destruct (N.ltb_spec hi b); [lia|]. reflexivity.
  - right. split; auto. do 2 eexists. split; [reflexivity|auto].
  - right. split; auto. do 2 eexists. split; [reflexivity|]. destruct cur as [c|]; cbn; auto. destruct (Nat.eqb_spec c w); subst; cbn; auto.
  - right. split; auto. do 2 eexists. split; [reflexivity|auto].
  - right. split; auto. destruct (Nat.ltb_spec m 16); [|congruence]. do 2 eexists. split; [reflexivity|auto].
  - right. split; auto. destruct (Nat.ltb_spec m 16); [|congruence]. do 2 eexists. split; [reflexivity|auto].
  - right. split; auto. apply bol_bool in H7; auto. rewrite H7 in *. unfold next. do 2 eexists. split; [reflexivity|auto].
  - right. split; auto. apply eol_bool in H7; auto. rewrite H7 in *. unfold next. do 2 eexists. split; [reflexivity|auto].
  - right. split; auto. apply bow_bool in H7; auto. rewrite H7 in *. unfold next. do 2 eexists. split; [reflexivity|auto].
  - right. split; auto. destruct ((p' =? length s) && (p' =? 0)) eqn:Z; [congruence|]. assert (Z' : ~ (p' = length s /\ p' = 0)) by (intros [-> Z']; rewrite Z', !Nat.eqb_refl in Z; discriminate).
    apply eow_bool in H7; auto. destruct ((p' =? length s) && isword (skipn (prevchar s p') s)); [|rewrite H7 in *]; unfold next; do 2 eexists; (split; [reflexivity|auto]).
Qed.

(* which address a step leads to does not depend on the groups *)
Lemma cstep_any v p g w p' g' h : cstep (v, p, g) (w, p', g') -> exists h', cstep (v, p, h) (w, p', h').
Proof.
  intros H. inversion H; subst; eexists; [eapply c_byte|eapply c_range|eapply c_forkl|eapply c_forkr|eapply c_jmp|eapply c_lbra|eapply c_rbra|eapply c_bol|eapply c_eol|eapply c_bow|eapply c_eow]; eauto.
Qed.
Definition edge (p v w : nat) : Prop := exists g g', cstep (v, p, g) (w, p, g').
Definition eats (p v w : nat) : Prop := exists g g', cstep (v, p, g) (w, p + 1, g').
Definition ismatch (v : nat) : Prop := exists id, nth_error P v = Some (Imatch id).

Notation ips := (map ip).
Definition queueof (r : tres) : list thread := match r with Tcons _ q _ | Tdead q _ | Tmatch _ q _ => q | _ => [] end.
Definition closedto (p : nat) (V : list nat) (W : nat -> Prop) : Prop := forall v w, In v V -> edge p v w -> In w V \/ W w.

Lemma stepall_explore fuel : forall p start cur t q n r, p <= length s -> (cur = None \/ cur = Some start) -> stepall fuel p start cur t q n = r -> r <> Tabort -> r <> Thang ->
  exists V new, In (ip t) V /\ queueof r = new ++ q /\ closedto p V (fun w => w = start \/ In w (ips new)) /\
    match r with
    | Tcons t' _ _ => (forall v w, In v V -> eats p v w -> w = ip t') /\ (forall v, In v V -> ~ ismatch v) /\ exists v, eats p v (ip t')
    | Tdead _ _ => (forall v w, In v V -> ~ eats p v w) /\ (forall v, In v V -> ~ ismatch v)
    | Tmatch t' _ _ => (forall v w, In v V -> ~ eats p v w) /\ ismatch (ip t')
    | _ => False
    end.
Proof.
  induction fuel as [|fuel IH]; intros p start cur t q n r L Cu E Na Nh; cbn in E; [congruence|].
  pose proof (step_sound p cur t L) as So. pose proof (fun w p' g' H => step_complete p cur t w p' g' H L) as Co.
  destruct (step p cur t) as [t'| |t'|t' new|] eqn:Es; [subst r|subst r|subst r| |congruence].
  - exists [ip t], []. split; [left; auto|]. split; [reflexivity|]. split.
    + intros v w [<-|[]] (g & g' & C). destruct (cstep_any _ _ _ _ _ _ (mgroup t) C) as (h & C'). destruct (Co _ _ _ C' ltac:(congruence)) as [(X & _)|(_ & ? & ? & X & _)]; [lia|congruence].
    + split.
      * intros v w [<-|[]] (g & g' & C). destruct (cstep_any _ _ _ _ _ _ (mgroup t) C) as (h & C'). destruct (Co _ _ _ C' ltac:(congruence)) as [(_ & X)|(X & _)]; [|lia]. injection X as ->. reflexivity.
      * destruct So as [So _]. split; [intros v [<-|[]] (id & M); inversion So; congruence|]. exists (ip t). do 2 eexists; eauto.
  - exists [ip t], []. split; [left; auto|]. split; [reflexivity|]. destruct So as [So Sm]. split.
    + intros v w [<-|[]] (g & g' & C). destruct (cstep_any _ _ _ _ _ _ (mgroup t) C) as (h & C'). exfalso. eapply So; eauto.
    + split.
      * intros v w [<-|[]] (g & g' & C). destruct (cstep_any _ _ _ _ _ _ (mgroup t) C) as (h & C'). eapply So; eauto.
      * intros v [<-|[]] (id & M). eapply Sm; eauto.
  - exists [ip t], []. split; [left; auto|]. split; [reflexivity|]. destruct So as [-> (id & M)]. split.
    + intros v w [<-|[]] (g & g' & C). inversion C; congruence.
    + split; [|exists id; auto]. intros v w [<-|[]] (g & g' & C). inversion C; congruence.
  - destruct (IH p start (Some start) t' (new ++ q) (n + Z.of_nat (length new))%Z r L ltac:(auto) E Na Nh) as (V & new' & I & Q & Cl & R).
    exists (ip t :: V), (new' ++ new). split; [left; auto|]. split; [rewrite Q, app_assoc; reflexivity|]. destruct So as [So _].
    assert (Nn : forall w, ~ eats p (ip t) w). { intros w (g & g' & C). destruct (cstep_any _ _ _ _ _ _ (mgroup t) C) as (h & C'). destruct (Co _ _ _ C' ltac:(congruence)) as [(_ & X)|(X & _)]; [congruence|lia]. }
    assert (Nm : ~ ismatch (ip t)) by (intros (id & M); inversion So; congruence).
    split.
    + intros v w [<-|Iv] Ed.
      * destruct Ed as (g & g' & C). destruct (cstep_any _ _ _ _ _ _ (mgroup t) C) as (h & C'). destruct (Co _ _ _ C' ltac:(congruence)) as [(X & _)|(_ & t2 & new2 & X & Y)]; [lia|].
        injection X as <- <-. destruct Y as [->|[Y|Y]].
        -- left. right. exact I.
        -- right. right. rewrite map_app. apply in_or_app. right. apply (in_map ip) in Y. exact Y.
        -- right. left. destruct Cu as [->| ->]; [discriminate|congruence].
      * destruct (Cl v w Iv Ed) as [X|[X|X]]; [left; right; auto|auto|right; right; rewrite map_app; apply in_or_app; auto].
    + destruct r; try tauto.
      * destruct R as (R1 & R2 & R3). split; [intros v w [<-|Iv] X; [exfalso; eapply Nn; eauto|eauto]|split; [intros v [<-|Iv]; auto|auto]].
      * destruct R as [R1 R2]. split; [intros v w [<-|Iv] X; [exfalso; eapply Nn; eauto|eapply R1; eauto]|intros v [<-|Iv]; auto].
      * destruct R as [R1 R2]. split; [intros v w [<-|Iv] X; [exfalso; eapply Nn; eauto|eapply R1; eauto]|auto].
Qed.

(* the groups a thread carries are those of the path that leads to it *)
Section From.
Variable c0 : nat * nat * list group.
Definition at_ (p : nat) (t : thread) : Prop := reach c0 (ip t, p, mgroup t).
Lemma stepall_sound fuel : forall p start cur t q n, p <= length s -> at_ p t -> Forall (at_ p) q ->
  match stepall fuel p start cur t q n with
  | Tcons t' q' _ => at_ (p + 1) t' /\ p < length s /\ Forall (at_ p) q'
  | Tdead q' _ => Forall (at_ p) q'
  | Tmatch t' q' _ => at_ p t' /\ ismatch (ip t') /\ Forall (at_ p) q'
  | _ => True
  end.
Proof.
  induction fuel as [|fuel IH]; intros p start cur t q n L A F; cbn; [exact I|].
  pose proof (step_sound p cur t L) as So. destruct (step p cur t) as [t'| |t'|t' new|]; auto.
  - destruct So as [So Lt]. split; [eapply reach_trans; [exact A|apply reach_step; exact So]|]. split; auto.
  - destruct So as [-> (id & M)]. split; auto. split; auto. exists id; auto.
  - destruct So as [So Sn]. apply IH; auto.
    + eapply reach_trans; [exact A|apply reach_step; exact So].
    + apply Forall_app. split; auto. apply Forall_forall. intros x Ix. eapply reach_trans; [exact A|apply reach_step; auto].
Qed.
End From.

(* the count of live threads *)
Lemma stepall_count fuel : forall p start cur t q n, 
  match stepall fuel p start cur t q n with
  | Tcons t' q' n' => (n' - Z.of_nat (length q') = n - Z.of_nat (length q))%Z
  | Tdead q' n' | Tmatch _ q' n' => (n' - Z.of_nat (length q') = n - 1 - Z.of_nat (length q))%Z
  | _ => True
  end.
Proof.
  induction fuel as [|fuel IH]; intros p start cur t q n; cbn; [exact I|]. destruct (step p cur t) as [t'| |t'|t' new|]; auto; try lia.
  specialize (IH p start (Some start) t' (new ++ q) (n + Z.of_nat (length new))%Z). rewrite app_length in IH. destruct (stepall fuel p start (Some start) t' (new ++ q) (n + Z.of_nat (length new))); auto; lia.
Qed.

(* ---- one position ---- *)
Hypothesis noeatmatch : forall p v w, eats p v w -> ~ ismatch w.
Section Rounds.
Variable c0 : nat * nat * list group.
Variable whole : bool.
Notation at_ := (at_ c0).
Definition bestok (p : nat) (V : list nat) (best b' : option thread) : Prop :=
  ((forall v, In v V -> ~ ismatch v) /\ b' = best) \/ exists t, b' = Some t /\ at_ p t /\ ismatch (ip t).
Definition roundres (p : nat) (q expired : list thread) (best : option thread) (n : Z) (r : rres) : Prop :=
  match r with
  | Rdone t e _ => p = length s /\ at_ p t /\ ismatch (ip t) /\ e = []
  | Rend e' b' n' =>
      (n' - Z.of_nat (length e') = n - Z.of_nat (length q) - Z.of_nat (length expired))%Z /\ Forall (at_ (p + 1)) e' /\ (e' <> [] -> p < length s) /\
      (whole = true -> best = None -> b' = None) /\
      exists V, (forall t, In t q -> In (ip t) V) /\ closedto p V (fun _ => False) /\ (forall v w, In v V -> eats p v w -> In w (ips e')) /\ incl expired e' /\
        (forall v, In v V -> ismatch v -> p <> length s) /\ (whole = false -> bestok p V best b')
  | _ => True
  end.
Lemma mem_in x l : mem x l = true <-> In x l.
Proof using. clear. unfold mem. rewrite existsb_exists. split; [intros (y & I & E); apply Nat.eqb_eq in E; subst; auto|intros I; exists x; split; auto; apply Nat.eqb_refl]. Qed.

Lemma round_ok fuel : forall p q states expired best n, p <= length s -> Forall (at_ p) q -> Forall (at_ (p + 1)) expired -> (expired <> [] -> p < length s) ->
  (forall x, In x states -> In x (ips expired) /\ ~ ismatch x) -> roundres p q expired best n (round fuel whole p q states expired best n).
Proof.
  induction fuel as [|fuel IH]; intros p q states expired best n L Aq Ae Ne St; cbn [Regex_Model.round]; [exact I|].
  destruct q as [|t q].
  - cbn. split; [lia|]. split; auto. split; auto. split; auto. exists []. split; [intros ? []|]. split; [intros ? ? []|]. split; [intros ? ? []|]. split; [apply incl_refl|]. split; [intros ? []|].
    intros _. left. split; auto.
  - inversion Aq as [|? ? At Aq']; subst.
    pose proof (stepall_sound c0 (S fuel) p (ip t) None t q n L At Aq') as So. pose proof (stepall_count (S fuel) p (ip t) None t q n) as Cn.
    pose proof (stepall_explore (S fuel) p (ip t) None t q n _ L ltac:(auto) eq_refl) as Ex.
    destruct (Regex_Model.stepall isword P s (S fuel) p (ip t) None t q n) as [t' q' n'|q' n'|t' q' n'| |] eqn:Es; try exact I;
    (destruct Ex as (V & new & I & Q & Cl & R); [congruence|congruence|]); cbn [queueof] in Q; subst q'.
    + destruct So as (At' & Lt & Aq2). destruct R as (R1 & R2 & v0 & R3).
      assert (G : forall st e' m, incl expired e' -> In (ip t') (ips e') -> roundres p (new ++ q) e' best m (round fuel whole p (new ++ q) st e' best m) ->
                  (m - Z.of_nat (length e') = n' - 1 - Z.of_nat (length expired))%Z ->
                  roundres p (t :: q) expired best n (round fuel whole p (new ++ q) st e' best m)).
      { intros st e' m Inc Ine Rr Hm. destruct (Regex_Model.round isword P s fuel whole p (new ++ q) st e' best m) as [e2 b2 n2|t2 e2 n2| |]; auto. cbn in Rr |- *.
        destruct Rr as (A1 & A2 & A3 & A3' & V' & B1 & B2 & B3 & B4 & B5 & B6). split; [rewrite !app_length in *; lia|]. split; auto. split; auto. split; auto.
        exists (V ++ V'). split; [intros x [<-|Ix]; apply in_or_app; [left; auto|right; apply B1; apply in_or_app; auto]|]. split.
        { intros v w Iv Ed. left. apply in_or_app. apply in_app_or in Iv as [Iv|Iv].
          - destruct (Cl _ _ Iv Ed) as [X|[->|X]]; auto. right. apply in_map_iff in X as (x & <- & Ix). apply B1. apply in_or_app; auto.
          - destruct (B2 _ _ Iv Ed) as [X|[]]; auto. }
        split. { intros v w Iv Ea. apply in_app_or in Iv as [Iv|Iv]; [|eauto]. rewrite (R1 _ _ Iv Ea). apply in_map_iff in Ine as (x & <- & Ix). apply in_map. apply B4. auto. }
        split; [intros x Ix; auto|]. split.
        { intros v Iv M. apply in_app_or in Iv as [Iv|Iv]; [|eauto]. exfalso. eapply R2; eauto. }
        intros W. destruct (B6 W) as [(X & Y)|X]; [left; split; auto; intros v Iv; apply in_app_or in Iv as [Iv|Iv]; auto|right; auto]. }
      destruct (mem (ip t') states) eqn:Me.
      * apply mem_in in Me. destruct (St _ Me) as [X _]. apply G; [apply incl_refl|exact X|apply IH; auto|lia].
      * apply G.
        -- intros x Ix. apply in_or_app; auto.
        -- rewrite map_app. apply in_or_app. right. left. auto.
        -- apply IH; auto; [apply Forall_app; split; auto|]. intros x [<-|Ix]; [|destruct (St _ Ix); split; auto; rewrite map_app; apply in_or_app; auto].
           split; [rewrite map_app; apply in_or_app; right; left; auto|eapply noeatmatch; eauto].
        -- rewrite app_length. cbn. lia.
    + destruct R as (R1 & R2). specialize (IH p (new ++ q) states expired best n' L So Ae Ne St).
      destruct (Regex_Model.round isword P s fuel whole p (new ++ q) states expired best n') as [e2 b2 n2|t2 e2 n2| |]; auto. cbn in IH |- *.
      destruct IH as (A1 & A2 & A3 & A3' & V' & B1 & B2 & B3 & B4 & B5 & B6). split; [rewrite !app_length in *; lia|]. split; auto. split; auto. split; auto.
      exists (V ++ V'). split; [intros x [<-|Ix]; apply in_or_app; [left; auto|right; apply B1; apply in_or_app; auto]|]. split.
      { intros v w Iv Ed. left. apply in_or_app. apply in_app_or in Iv as [Iv|Iv].
        - destruct (Cl _ _ Iv Ed) as [X|[->|X]]; auto. right. apply in_map_iff in X as (x & <- & Ix). apply B1. apply in_or_app; auto.
        - destruct (B2 _ _ Iv Ed) as [X|[]]; auto. }
      split. { intros v w Iv Ea. apply in_app_or in Iv as [Iv|Iv]; [|eauto]. exfalso. eapply R1; eauto. }
      split; auto. split.
      { intros v Iv M. apply in_app_or in Iv as [Iv|Iv]; [|eauto]. exfalso. eapply R2; eauto. }
      intros W. destruct (B6 W) as [(X & Y)|X]; [left; split; auto; intros v Iv; apply in_app_or in Iv as [Iv|Iv]; auto|right; auto].
    + destruct So as (At' & Ma & Aq2). destruct R as (R1 & R2).
      assert (Me : mem (ip t') states = false). { destruct (mem (ip t') states) eqn:Me; auto. apply mem_in in Me. destruct (St _ Me). contradiction. }
      rewrite Me. destruct (Nat.eqb_spec p (length s)) as [Ep|Np].
      * cbn. split; auto. split; auto. split; auto. destruct expired; auto. exfalso. specialize (Ne ltac:(discriminate)). lia.
      * set (b1 := if whole then None else Some t'). specialize (IH p (new ++ q) states expired b1 n' L Aq2 Ae Ne St).
        destruct (Regex_Model.round isword P s fuel whole p (new ++ q) states expired b1 n') as [e2 b2 n2|t2 e2 n2| |]; auto. cbn in IH |- *.
        destruct IH as (A1 & A2 & A3 & A3' & V' & B1 & B2 & B3 & B4 & B5 & B6). split; [rewrite !app_length in *; lia|]. split; auto. split; auto.
        split. { intros W _. apply A3'; auto. unfold b1. rewrite W. reflexivity. }
        exists (V ++ V'). split; [intros x [<-|Ix]; apply in_or_app; [left; auto|right; apply B1; apply in_or_app; auto]|]. split.
        { intros v w Iv Ed. left. apply in_or_app. apply in_app_or in Iv as [Iv|Iv].
          - destruct (Cl _ _ Iv Ed) as [X|[->|X]]; auto. right. apply in_map_iff in X as (x & <- & Ix). apply B1. apply in_or_app; auto.
          - destruct (B2 _ _ Iv Ed) as [X|[]]; auto. }
        split. { intros v w Iv Ea. apply in_app_or in Iv as [Iv|Iv]; [|eauto]. exfalso. eapply R1; eauto. }
        split; auto. split; [auto|].
        intros W. right. destruct (B6 W) as [(X & Y)|X]; auto. exists t'. unfold b1 in Y. rewrite W in Y. auto.
Qed.

(* ---- the whole string ---- *)
Definition hits (p v e : nat) : Prop := exists w g g', reach (v, p, g) (w, e, g') /\ ismatch w.
Lemma closed_path p V n : forall v g w e g', closedto p V (fun _ => False) -> In v V -> path isword P s n (v, p, g) (w, e, g') ->
  (e = p /\ In w V) \/ exists v' u h, In v' V /\ eats p v' u /\ reach (u, p + 1, h) (w, e, g').
Proof.
  induction n as [|n IH]; intros v g w e g' Cl Iv Pa; inversion Pa as [|? ? c1 ? St Pa']; subst; [auto|].
  destruct c1 as [[v1 p1] g1]. assert (p1 = p \/ p1 = p + 1) as [->| ->] by (inversion St; subst; auto).
  - destruct (Cl v v1 Iv) as [X|[]]; [do 2 eexists; eauto|]. eapply IH; eauto.
  - right. exists v, v1, g1. split; auto. split; [do 2 eexists; eauto|]. exists n; auto.
Qed.
Lemma path_le n : forall v p g w e g', path isword P s n (v, p, g) (w, e, g') -> p <= length s -> p <= e <= length s.
Proof.
  induction n as [|n IH]; intros v p g w e g' Pa L; inversion Pa as [|? ? c1 ? St Pa']; subst; [lia|]. destruct c1 as [[v1 p1] g1].
  assert (p <= p1 <= length s). { inversion St; subst; try lia; (assert (p < length s) by (apply nth_error_Some; congruence)); lia. }
  apply IH in Pa'; lia.
Qed.
Definition runres (p : nat) (q : list thread) (best b : option thread) (n : Z) : Prop :=
  match b with
  | None => best = None /\ n = 0%Z /\ forall v, In v (ips q) -> ~ hits p v (length s) /\ (whole = false -> forall e, ~ hits p v e)
  | Some t =>
      (whole = false /\ best = Some t /\ n = 0%Z /\ forall v e, In v (ips q) -> ~ hits p v e) \/
      (exists e, p <= e <= length s /\ at_ e t /\ ismatch (ip t) /\ (whole = true -> e = length s) /\ forall v e', In v (ips q) -> hits p v e' -> e' <= e)
  end.
Lemma rounds_ok fuel : forall p q best n, (q <> [] -> p <= length s) -> Forall (at_ p) q -> n = Z.of_nat (length q) -> (whole = true -> best = None) ->
  match rounds fuel whole p q best n with Ret b n' => runres p q best b n' | _ => True end.
Proof.
  induction fuel as [|fuel IH]; intros p q best n L Aq En Wb; cbn [Regex_Model.rounds]; [exact I|].
  destruct (Z.ltb_spec 0 n) as [Pn|Pn].
  - assert (Nq : q <> []) by (intros ->; cbn in En; lia). specialize (L Nq).
    pose proof (round_ok (S fuel) p q [] [] best n L Aq ltac:(constructor) ltac:(congruence) ltac:(intros ? [])) as R.
    destruct (Regex_Model.round isword P s (S fuel) whole p q [] [] best n) as [e' b' n'|t e' n'| |]; auto.
    + cbn in R. destruct R as (A1 & A2 & A3 & A3' & V & B1 & B2 & B3 & B4 & B5 & B6).
      specialize (IH (p + 1) e' b' n' ltac:(intros X; specialize (A3 X); lia) A2 ltac:(lia) ltac:(auto)).
      destruct (Regex_Model.rounds isword P s fuel whole (p + 1) e' b' n') as [b n2| |]; auto.
      assert (Hit : forall v e, In v (ips q) -> hits p v e -> (e = p /\ exists w, In w V /\ ismatch w) \/ exists u, In u (ips e') /\ hits (p + 1) u e).
      { intros v e Iv (w & g & g' & (m & Pa) & M). apply in_map_iff in Iv as (x & <- & Ix). destruct (closed_path p V m _ _ _ _ _ B2 (B1 _ Ix) Pa) as [(-> & Iw)|(v' & u & h & Iv' & Ea & Re)].
        - left. split; auto. exists w. auto.
        - right. exists u. split; [eauto|]. exists w, h, g'. auto. }
      destruct b as [t|]; cbn in IH |- *.
      * destruct IH as [(W & -> & -> & Nh)|(e & Le & At & M & We & Mx)].
        -- destruct (B6 W) as [(Nm & <-)|(t' & E' & At & M)].
           ++ left. split; auto. split; auto. split; auto. intros v e Iv H. destruct (Hit _ _ Iv H) as [(-> & w & Iw & M)|(u & Iu & Hu)]; [eapply Nm; eauto|eapply Nh; eauto].
           ++ injection E' as <-. right. exists p. split; [lia|]. split; auto. split; auto. split; [congruence|].
              intros v e Iv H. destruct (Hit _ _ Iv H) as [(-> & _)|(u & Iu & Hu)]; [lia|exfalso; eapply Nh; eauto].
        -- right. exists e. split; [lia|]. split; auto. split; auto. split; auto.
           intros v e2 Iv H. destruct (Hit _ _ Iv H) as [(-> & _)|(u & Iu & Hu)]; [lia|eapply Mx; eauto].
      * destruct IH as (-> & -> & Nh). split.
        { destruct whole eqn:W; [auto|]. destruct (B6 eq_refl) as [(_ & <-)|(? & ? & _)]; [auto|discriminate]. }
        split; auto. intros v Iv. split.
        -- intros H. destruct (Hit _ _ Iv H) as [(E & w & Iw & M)|(u & Iu & Hu)]; [exact (B5 _ Iw M (eq_sym E))|destruct (Nh _ Iu) as [X _]; exact (X Hu)].
        -- intros W e H. destruct (Hit _ _ Iv H) as [(-> & w & Iw & M)|(u & Iu & Hu)].
           ++ destruct (B6 W) as [(Nm & _)|(? & ? & _)]; [eapply Nm; eauto|discriminate].
           ++ destruct (Nh _ Iu) as [_ X]. eapply X; eauto.
    + cbn in R. destruct R as (-> & At & M & _). right. exists (length s). split; [lia|]. split; auto. split; auto. split; auto.
      intros v e Iv (w & g & g' & (m & Pa) & _). apply path_le in Pa; lia.
  - assert (Eq : q = []) by (destruct q; [auto|cbn in En; lia]). subst q. cbn in En. subst n. destruct best as [t|]; cbn.
    + left. split; [destruct whole; auto; specialize (Wb eq_refl); discriminate|]. split; auto.
    + split; auto.
Qed.
End Rounds.
End Run.
