(* Properties C23, C24 and C61-C63: unification and comparison of types. *)
From Verif Require Import Base Unify_Spec Unify_Model Unify_Proofs Unify_Same Unify_Occurs Unify_Sol Unify_Tyeq Unify_Cache.
Open Scope nat_scope.

(* What the declarations of a program guarantee: the members of a struct or union have distinct names, and every use of a
   generic name has the declared number of arguments. *)
Definition declared (h : heap) : Prop :=
  (forall x ms, nodeof h x = Nstruct ms -> NoDup (map fst ms)) /\
  (forall x ms, nodeof h x = Nunion ms -> NoDup (map fst ms)) /\
  (forall x y n us t us' t', nodeof h x = Nname n us t -> nodeof h y = Nname n us' t' -> length us = length us').
(* no two different type parameters are in play *)
Definition one_parameter (h : heap) : Prop := forall x y n n', nodeof h x = Nparam n -> nodeof h y = Nparam n' -> n = n'.
(* structs, and unions, with the same member names list them in the same order *)
Definition one_order (h : heap) : Prop :=
  (forall x y ms ms', nodeof h x = Nstruct ms -> nodeof h y = Nstruct ms' -> (forall n, In n (map fst ms) <-> In n (map fst ms')) -> map fst ms = map fst ms') /\
  (forall x y ms ms', nodeof h x = Nunion ms -> nodeof h y = Nunion ms' -> (forall n, In n (map fst ms) <-> In n (map fst ms')) -> map fst ms = map fst ms').

(* C23, for programs with at most one type parameter in play and up to the order of members: after any sequence of
   successful unifications every pair that was unified is one type; the full statement is refuted below. *)
Theorem C23_session_partial h f cs s : declared h -> one_parameter h -> unify_all h f init cs = Ok s ->
  forall u v, In (u, v) cs -> same false h (tab s) u v.
Proof.
  intros (D1 & D2 & D3) P H. apply (unify_all_same h D1 D2 D3 P f cs init s); auto. apply wf_init.
Qed.
(* one call: the two types become one, and types that were one remain so *)
Theorem C23_step_partial h f cs s u v s' : declared h -> one_parameter h -> unify_all h f init cs = Ok s -> forall g, unify h g s u v = Ok s' ->
  same false h (tab s') u v /\ (forall x y, same false h (tab s) x y -> same false h (tab s') x y).
Proof.
  intros (D1 & D2 & D3) P H g K. destruct (unify_all_same h D1 D2 D3 P f cs init s (wf_init h) H) as (_ & _ & W).
  destruct (unify_same h D1 D2 D3 P g s u v s' W K) as (A & B & _). auto.
Qed.
(* the element type of a loop over a value of yet unknown type agrees with the type found for it *)
Theorem C23_elements h f cs s u v s' a b ea eb : declared h -> one_parameter h -> unify_all h f init cs = Ok s -> forall g, unify h g s u v = Ok s' ->
  rep (tab s) u a -> rep (tab s) v b -> isvar (nodeof h a) = true \/ isvar (nodeof h b) = true -> element h a ea -> element h b eb ->
  same false h (tab s') ea eb.
Proof.
  intros (D1 & D2 & D3) P H g K. destruct (unify_all_same h D1 D2 D3 P f cs init s (wf_init h) H) as (_ & _ & W).
  eapply (unify_elem h D1 D2 D3 P); eauto.
Qed.
(* ... and throughout a session: the element type of a loop variable is that of whatever it has come to stand for, however
   many other variables it has been unified with before.  Named types name types, not type variables. *)
Definition named_types (h : heap) : Prop := forall x n us t, nodeof h x = Nname n us t -> isvar (nodeof h t) = false.
Theorem C23_loops h f cs s x e a ea : declared h -> one_parameter h -> named_types h -> unify_all h f init cs = Ok s ->
  nodeof h x = Nvar (Some e) -> rep (tab s) x a -> element h a ea -> same false h (tab s) e ea.
Proof.
  intros (D1 & D2 & D3) P N H Ex Ra. destruct (unify_all_loops h D1 D2 D3 P f N cs init s (wf_init h) H (init_loops h) x e a Ex Ra) as [_ K]. apply K.
Qed.
Lemma ordered_list {A} (R : A -> A -> Prop) ms : forall ms', NoDup (map fst ms) -> map fst ms = map fst ms' -> covers R ms ms' -> same_list R ms ms'.
Proof.
  induction ms as [|[n x] ms IH]; intros [|[n' y] ms'] D E C; try discriminate; [constructor|].
  cbn in E. injection E as <- E. cbn in D. inversion D as [|? ? Nin D']; subst. unfold same_list. constructor.
  - cbn. split; auto. destruct (C n x (or_introl eq_refl)) as (t & [E1|I1] & r).
    + injection E1 as ->. auto.
    + exfalso. apply Nin. rewrite E. apply in_map_iff. exists (n, t). auto.
  - apply IH; auto. intros m z Iz. destruct (C m z (or_intror Iz)) as (t & [E1|I1] & r); [|eauto].
    exfalso. injection E1 as -> _. apply Nin. apply in_map_iff. exists (m, z). auto.
Qed.
Lemma members_names {A} (R : A -> A -> Prop) ms ms' : same_members R ms ms' -> forall n, In n (map fst ms) <-> In n (map fst ms').
Proof.
  intros (_ & C1 & C2) n. split; intros I; apply in_map_iff in I as ((m & x) & <- & I); cbn.
  - destruct (C1 m x I) as (y & Iy & _). apply in_map_iff. exists (m, y). auto.
  - destruct (C2 m x I) as (y & Iy & _). apply in_map_iff. exists (m, y). auto.
Qed.
Lemma ordered_same h l : declared h -> one_order h -> forall x y, same false h l x y -> same true h l x y.
Proof.
  intros (D1 & D2 & _) (O1 & O2) x y S. exists (same false h l). split; auto. clear x y S. intros x y S.
  destruct (same_respected _ _ _ _ _ S) as (a & b & Ra & Rb & E). exists a, b. split; auto. split; auto. destruct E as [E|E]; auto. right.
  destruct (nodeof h a) eqn:Ea, (nodeof h b) eqn:Eb; cbn [alike] in *; auto.
  - apply ordered_list; [eapply D1; eauto|eapply O1; eauto; eapply members_names; eauto|apply E].
  - apply ordered_list; [eapply D2; eauto|eapply O2; eauto; eapply members_names; eauto|apply E].
Qed.
(* when member names come in one order the types are one type in the strict sense *)
Theorem C23_strict_partial h f cs s : declared h -> one_parameter h -> one_order h -> unify_all h f init cs = Ok s ->
  forall u v, In (u, v) cs -> same true h (tab s) u v.
Proof. intros D P O H u v I. apply ordered_same; auto. eapply C23_session_partial; eauto. Qed.

(* Non-vacuity: [x : $1; y : $2[:]] and a pointer cycle.  $0 = ($1, $2), $0 = (int, $3[:]), $4 = ($4#, $1). *)
Definition h1 : heap :=
  [Nvar None; Nvar None; Nvar None; Nvar None; Nvar None; Nprim 7%N; Nslice 3; Ntuple [1; 2]; Ntuple [5; 6]; Nptr 4; Ntuple [9; 1];
   Nstruct [(1%N, 1); (2%N, 2)]; Nstruct [(1%N, 5); (2%N, 6)]; Nname 9%N [1] 11; Nname 9%N [5] 12].
Definition cs1 : list (tid * tid) := [(13, 14); (0, 7); (0, 8); (4, 10)].
Lemma nodeof_in h x n : nodeof h x = n -> n <> Nprim 0 -> In n h.
Proof. unfold nodeof. intros <- D. destruct (Nat.lt_ge_cases x (length h)); [now apply nth_In|]. rewrite nth_overflow in D by lia. contradiction. Qed.
Ltac nodes E := apply nodeof_in in E; [cbn in E; repeat (destruct E as [E|E]; [try discriminate E|]); try contradiction|discriminate].
Example h1_unifies : declared h1 /\ one_parameter h1 /\ one_order h1 /\
  match unify_all h1 30 init cs1 with Ok s => (tab s 1, tab s 2, tab s 4) = (Some 5, Some 6, Some 10) | _ => False end.
Proof.
  assert (N : forall x ms, nodeof h1 x = Nstruct ms -> NoDup (map fst ms) /\ map fst ms = [1%N; 2%N]).
  { intros x ms E. nodes E; injection E as <-; (split; [repeat constructor; cbn; intuition discriminate|reflexivity]). }
  assert (U : forall x ms, nodeof h1 x <> Nunion ms) by (intros x ms E; nodes E).
  split; [split; [|split]|split; [|split; [split|]]].
  - intros x ms E. now apply (N x).
  - intros x ms E. destruct (U x ms E).
  - intros x y n us t us' t' E E'. assert (K : forall x n us t, nodeof h1 x = Nname n us t -> length us = 1).
    { clear. intros x n us t E. nodes E; injection E as <- <- <-; reflexivity. }
    now rewrite (K _ _ _ _ E), (K _ _ _ _ E').
  - intros x y n n' E. nodes E.
  - intros x y ms ms' E E' _. now rewrite (proj2 (N _ _ E)), (proj2 (N _ _ E')).
  - intros x y ms ms' E. destruct (U x ms E).
  - vm_compute. reflexivity.
Qed.
Example h1_elements : let h := [Nvar (Some 1); Nvar None; Nprim 3%N; Nslice 2] in
  element h 0 1 /\ element h 3 2 /\ match unify h 9 init 0 3 with Ok s => tab s 1 = Some 2 | _ => False end.
Proof. intros h. split; [now apply el_var|split; [now apply el_slice|vm_compute; reflexivity]]. Qed.

(* $0, looped over with elements $1, is first unified with the plain variable $2, and $2 with byte[:] *)
Example h1_loops : let h := [Nvar (Some 1); Nvar None; Nvar None; Nprim 3%N; Nslice 3] in
  element h 4 3 /\ match unify_all h 9 init [(0, 2); (2, 4)] with Ok s => rep (tab s) 0 4 /\ tab s 1 = Some 3 | _ => False end.
Proof. cbn zeta. split; [apply el_slice; reflexivity|]. split; [|reflexivity]. repeat (eapply rep_step; [reflexivity|]). constructor. reflexivity. Qed.
(* Refuted: structs whose members are in different orders, hence laid out differently, are unified without an error *)
Definition h2 : heap := [Nprim 3%N; Nprim 7%N; Nstruct [(1%N, 0); (2%N, 1)]; Nstruct [(2%N, 1); (1%N, 0)]].
Theorem C23_order_refuted : exists h cs s, declared h /\ one_parameter h /\ unify_all h 20 init cs = Ok s /\
  exists u v, In (u, v) cs /\ ~ same true h (tab s) u v.
Proof.
  exists h2, [(2, 3)], init. split; [split; [|split]|split; [|split]].
  - intros x ms E. nodes E; injection E as <-; repeat constructor; cbn; intuition discriminate.
  - intros x ms E. nodes E.
  - intros x y n us t us' t' E. nodes E.
  - intros x y n n' E. nodes E.
  - vm_compute. reflexivity.
  - exists 2, 3. split; [now left|]. intros S.
    destruct (same_inv _ _ _ _ _ 2 3 S ltac:(now constructor) ltac:(now constructor)) as [E|Al]; [discriminate|].
    cbn in Al. inversion Al as [|? ? ? ? [E _] _]. discriminate E.
Qed.
(* Refuted: two different type parameters of a generic are unified without an error *)
Theorem C23_params_refuted : exists h cs s, declared h /\ unify_all h 20 init cs = Ok s /\
  exists u v, In (u, v) cs /\ ~ same false h (tab s) u v.
Proof.
  exists [Nparam 1%N; Nparam 2%N], [(0, 1)], init. split; [split; [|split]|split].
  - intros x ms E. nodes E.
  - intros x ms E. nodes E.
  - intros x y n us t us' t' E. nodes E.
  - vm_compute. reflexivity.
  - exists 0, 1. split; [now left|]. intros S.
    destruct (same_inv _ _ _ _ _ 0 1 S ltac:(now constructor) ltac:(now constructor)) as [E|Al]; [discriminate|].
    cbn in Al. discriminate Al.
Qed.
Print Assumptions C23_session_partial.
Print Assumptions C23_step_partial.
Print Assumptions C23_elements.
Print Assumptions C23_loops.
Print Assumptions C23_strict_partial.
Print Assumptions C23_order_refuted.
Print Assumptions C23_params_refuted.

(* C24: after any sequence of unifications, unifying an unresolved variable with a type that holds it inside, other than
   behind a pointer or slice, is an error, whichever way round the two are given. *)
Theorem C24_reported h f cs s u v a : unify_all h f init cs = Ok s ->
  rep (tab s) u a -> isvar (nodeof h a) = true -> contains h (tab s) a v -> (forall b, rep (tab s) v b -> isvar (nodeof h b) = false) ->
  exists enough, forall g, enough <= g -> unify h g s u v = Err /\ unify h g s v u = Err.
Proof.
  intros H Ra Va C Nb. destruct (unify_all_bounded _ _ _ _ H) as [N Bd].
  exists (N + length h + 3). intros g L. eapply (occurs_err h s N); eauto; [|lia].
  intros R. rewrite (Nb a R) in Va. discriminate.
Qed.
Lemma tylookup_noerr f : forall l t, tylookup f l t <> Err.
Proof. induction f as [|f IH]; intros l t E; [discriminate|]. cbn [tylookup] in E. destruct (l t) as [p|]; [|discriminate]. destruct (l p); eapply IH; eauto. Qed.
Lemma tf_noerr f s t : tf f s t <> Err.
Proof. unfold tf. destruct (tylookup f (tab s) t) as [[]| |] eqn:E; cbn [bind]; try discriminate. destruct (tylookup_noerr _ _ _ E). Qed.
Lemma basetype_noerr h f : forall t, basetype h f t <> Err.
Proof. induction f as [|f IH]; intros t E; [discriminate|]. cbn [basetype] in E. destruct (nodeof h t); try discriminate. eapply IH; eauto. Qed.
Lemma anyoccurs_noerr rec : (forall l t, rec l t <> Err) -> forall ts l, anyoccurs rec l ts <> Err.
Proof.
  intros N. induction ts as [|t ts IH]; intros l E; [discriminate|]. cbn [anyoccurs] in E.
  destruct (rec l t) as [[r l']| |] eqn:Er; cbn [bind] in E; try discriminate; [|eapply N; eauto]. destruct r; [discriminate|]. eapply IH; eauto.
Qed.
Lemma occurs_noerr h f : forall l bs t, occurs_rec h f l bs t <> Err.
Proof.
  induction f as [|f IH]; intros l bs t E; [discriminate|]. rewrite occurs_rec_eq in E.
  destruct (tylookup (S f) l t) as [[a l']| |] eqn:E1; cbn [bind] in E; try discriminate; [|eapply tylookup_noerr; eauto].
  destruct (has bs a); [discriminate|]. eapply (anyoccurs_noerr _ (fun l t => IH l _ t)); eauto.
Qed.
(* and a variable is only ever refused if it lies within the other type or some type already lies within itself *)
Theorem C24_only h s a b g : rep (tab s) a a -> rep (tab s) b b -> a <> b ->
  nodeof h a = Nvar None -> isvar (nodeof h b) = false -> unify h g s a b = Err ->
  contains h (tab s) a b \/ exists x, selfinside h (tab s) x.
Proof.
  intros Ra Rb D Ea Vb H. destruct g as [|g]; [discriminate|]. cbn [unify] in H.
  assert (TF : forall t, rep (tab s) t t -> tf (S g) s t = Ok (t, s)).
  { intros t R. unfold tf. cbn [tylookup]. rewrite (rep_last _ _ _ R). cbn. now destruct s. }
  rewrite (TF a Ra) in H. cbn [bind] in H. rewrite (TF b Rb) in H. cbn [bind] in H.
  destruct (Nat.eqb_spec a b); [contradiction|]. rewrite Ea in H. cbn [tyrank] in H.
  replace (tyrank (nodeof h b) <? 0) with false in H by (symmetry; now apply Nat.ltb_ge, Nat.le_0_l).
  rewrite Ea, Vb in H. cbn [isvar] in H.
  destruct (occursin h (S g) (tab s) a b) as [[r l]| |] eqn:E; cbn [bind] in H; [| |discriminate].
  - unfold occursin in E. cbn [tylookup] in E. rewrite (rep_last _ _ _ Ra) in E. cbn [bind] in E. destruct r.
    + destruct (occurs_real h _ _ _ _ _ E) as [(v & [<-|[]] & C)|C]; auto.
    + exfalso. clear E. cbn [bind] in H. assert (Bt : basetype h (S g) a = Ok None) by (cbn [basetype]; now rewrite Ea).
      rewrite Bt in H. cbn [bind] in H. destruct (basetype h (S g) b) as [[e|]| |] eqn:Eb; cbn [bind] in H; try discriminate.
      * match type of H with context [tf ?f ?s ?t] => destruct (tf f s t) as [[]| |] eqn:Et end; cbn [bind] in H; try discriminate.
        eapply tf_noerr; eauto.
      * eapply basetype_noerr; eauto.
  - exfalso. unfold occursin in E. cbn [tylookup] in E. rewrite (rep_last _ _ _ Ra) in E. cbn [bind] in E. eapply occurs_noerr; eauto.
Qed.

(* Non-vacuity: once $3 = (int, $0), unifying $0 with struct x : $3 is refused. *)
Definition h3 : heap := [Nvar None; Nprim 7%N; Ntuple [1; 0]; Nvar None; Nstruct [(1%N, 3)]; Nslice 0].
Example h3_refused : match unify_all h3 20 init [(3, 2)] with
  | Ok s => rep (tab s) 0 0 /\ contains h3 (tab s) 0 4 /\ rep (tab s) 4 4 /\ unify h3 20 s 0 4 = Err /\ unify h3 20 s 4 0 = Err /\
            exists s', unify h3 20 s 0 5 = Ok s'
  | _ => False
  end.
Proof.
  set (r := unify_all h3 20 init [(3, 2)]). vm_compute in r. subst r. split; [now constructor|].
  split; [|split; [now constructor|split; [vm_compute; reflexivity|split; [vm_compute; reflexivity|eexists; vm_compute; reflexivity]]]].
  apply (ct_part _ _ _ 4 4 3); [now apply rep_end|now left|].
  apply (ct_part _ _ _ 3 2 0); [apply (rep_step _ 3 2 2); [reflexivity|now apply rep_end]|right; now left|]. apply ct_here. now apply rep_end.
Qed.
Print Assumptions C24_reported.
Print Assumptions C24_only.

(* C61: what can be unified is.  If some reading of the types makes every required pair equal and no type hold itself, *)
Definition solvable_by (h : heap) (S : tid -> tid -> Prop) (cs : list (tid * tid)) : Prop :=
  solution h S /\ no_infinite h S /\ forall u v, In (u, v) cs -> S u v.
Lemma unify_all_sound h S size (slack : Prop) cs f : solution h S -> no_infinite h S -> declared h ->
  (slack \/ (closed h /\ (forall x y, S x y -> size x = size y) /\ (forall x y, In y (parts (nodeof h x)) -> size y < size x) /\ (forall x e, element h x e -> size e < size x))) ->
  forall s, I h S slack (tab s) -> (forall u v, In (u, v) cs -> S u v /\ (slack \/ (in_heap h u /\ in_heap h v /\ B h + size u < f))) ->
  holds slack (unify_all h f s cs) (fun s' => I h S slack (tab s')).
Proof.
  intros Sol NI (D1 & D2 & _) Fin. induction cs as [|[u v] cs IH]; intros s Is H; [exact Is|]. cbn [unify_all].
  destruct (H u v (or_introl eq_refl)) as [Suv K]. eapply holds_bind; [exact (unify_sound h S Sol NI D1 D2 slack size Fin f s u v Is Suv K)|].
  intros s1 I1. apply IH; auto. intros x y Ixy. apply H. now right.
Qed.
(* ... then no error is reported, however deep or cyclic the types, *)
Theorem C61_no_error h S cs f : declared h -> solvable_by h S cs -> unify_all h f init cs <> Err.
Proof.
  intros D (Sol & NI & H) E.
  assert (K : holds True (unify_all h f init cs) (fun s' => I h S True (tab s'))).
  { apply (unify_all_sound h S (fun _ => 0)); auto. split; [intros x y; discriminate|now left]. }
  rewrite E in K. exact K.
Qed.
(* what has been found out holds in every such reading: nothing is guessed, *)
Theorem C61_most_general h S cs f s : declared h -> solvable_by h S cs -> unify_all h f init cs = Ok s ->
  forall x y, (exists a, rep (tab s) x a /\ rep (tab s) y a) -> S x y.
Proof.
  intros D (Sol & NI & H) E x y (a & Rx & Ry).
  assert (K : holds True (unify_all h f init cs) (fun s' => I h S True (tab s'))).
  { apply (unify_all_sound h S (fun _ => 0)); auto. split; [intros u v; discriminate|now left]. }
  rewrite E in K. cbn in K. eapply (strans h S Sol _ a); [eapply I_rep; eauto|]. apply (ssym h S Sol). eapply I_rep; eauto.
Qed.
(* and if the reading makes all types finite, unification ends. *)
Theorem C61_ends h S cs : declared h -> solvable_by h S cs -> closed h -> all_finite h S -> (forall u v, In (u, v) cs -> in_heap h u /\ in_heap h v) ->
  exists enough, forall f, enough <= f -> exists s, unify_all h f init cs = Ok s.
Proof.
  intros D (Sol & NI & H) C (size & Z1 & Z2 & Z3) Hh. exists (Datatypes.S (B h + list_max (map (fun p => size (fst p)) cs))). intros f L.
  assert (K : holds False (unify_all h f init cs) (fun s' => I h S False (tab s'))).
  { apply (unify_all_sound h S size); auto.
    - split; [intros u v; discriminate|right]. split; [intros x; exists x; now constructor|intros x y; discriminate].
    - intros u v Iuv. split; auto. right. destruct (Hh u v Iuv). split; auto. split; auto.
      assert (size u <= list_max (map (fun p => size (fst p)) cs)); [|lia].
      pose proof (proj1 (list_max_le (map (fun p => size (fst p)) cs) _) (le_n _)) as F. rewrite Forall_forall in F. apply F.
      apply in_map_iff. exists (u, v). auto. }
  destruct (unify_all h f init cs) as [s| |]; cbn in K; try contradiction. eauto.
Qed.
(* Non-vacuity: $0 = int, ($0, $1) = ($2, $0): the reading that makes 0, 1, 2 and int one type *)
Definition h4 : heap := [Nvar None; Nvar None; Nvar None; Nprim 7%N; Ntuple [0; 1]; Ntuple [2; 0]].
Definition cls4 (x : tid) : nat := if x <? 4 then 0 else if x <? 6 then 1 else x.
Definition S4 (x y : tid) : Prop := cls4 x = cls4 y.
Example h4_solvable : declared h4 /\ solvable_by h4 S4 [(0, 3); (4, 5)] /\ closed h4 /\ all_finite h4 S4 /\ in_heap h4 5.
Proof.
  assert (El : forall x e, ~ element h4 x e).
  { intros x e H. induction H as [x e E|x n us t e E H IH|x e E|x e E|x z e E]; nodes E. }
  assert (Hi : forall k, nodeof h4 (6 + k) = Nprim 0) by (intros [|k]; reflexivity).
  assert (Pt : forall x y, In y (parts (nodeof h4 x)) -> cls4 y = 0 /\ cls4 x = 1 /\ in_heap h4 y).
  { intros x y Iy. assert (L : x = 0 \/ x = 1 \/ x = 2 \/ x = 3 \/ x = 4 \/ x = 5 \/ 6 <= x) by lia.
    destruct L as [->|[->|[->|[->|[->|[->|L]]]]]]; try (destruct Iy; fail).
    - destruct Iy as [<-|[<-|[]]]; repeat split; unfold in_heap; cbn; lia.
    - destruct Iy as [<-|[<-|[]]]; repeat split; unfold in_heap; cbn; lia.
    - replace x with (6 + (x - 6)) in Iy by lia. rewrite Hi in Iy. destruct Iy. }
  assert (By : forall n, byvalue n = parts n \/ byvalue n = [] \/ exists m us t, n = Nname m us t) by (intros []; cbn; eauto 8).
  assert (Wi : forall z x, within h4 S4 z x -> cls4 z < cls4 x).
  { intros z x W. induction W as [x a y z Sxa Iy Syz|x y z W1 IH1 W2 IH2]; [|lia].
    assert (In y (parts (nodeof h4 a))) as Ip.
    { destruct (By (nodeof h4 a)) as [E|[E|(m & us & t & E)]]; [now rewrite <- E|rewrite E in Iy; destruct Iy|exfalso; nodes E]. }
    destruct (Pt a y Ip) as (E0 & E1 & _). unfold S4 in *. lia. }
  split; [split; [|split]|split; [split; [|split]|split; [|split]]].
  - intros x ms E. nodes E.
  - intros x ms E. nodes E.
  - intros x y n us t us' t' E. nodes E.
  - split; unfold S4; try congruence.
    + intros x y Sxy Vx Vy.
      assert (Cx : forall x, isvar (nodeof h4 x) = false -> x = 3 \/ x = 4 \/ x = 5 \/ (cls4 x = x /\ nodeof h4 x = Nprim 0)).
      { clear. intros x V. 
        assert (L : x = 0 \/ x = 1 \/ x = 2 \/ x = 3 \/ x = 4 \/ x = 5 \/ 6 <= x) by lia.
        destruct L as [->|[->|[->|[->|[->|[->|L]]]]]]; auto; try discriminate V. right. right. right.
        replace x with (6 + (x - 6)) by lia. split; [reflexivity|]. destruct (x - 6); reflexivity. }
      destruct (Cx x Vx) as [->|[->|[->|[Lx Ex]]]]; destruct (Cx y Vy) as [->|[->|[->|[Ly Ey]]]]; try discriminate Sxy; try (rewrite Ex, Ey; reflexivity); cbn; auto;
        try (repeat constructor; fail); try (rewrite Ly in Sxy; cbn in Sxy; subst y; discriminate); try (rewrite Lx in Sxy; cbn in Sxy; subst x; discriminate).
    + intros x y e e' _ H. destruct (El x e H).
  - intros x W. apply Wi in W. lia.
  - intros u v [E|[E|[]]]; injection E as <- <-; reflexivity.
  - intros x. split; [intros y Iy; apply (Pt x y Iy)|intros e H; destruct (El x e H)].
  - exists cls4. split; auto. split; [intros x y Iy; destruct (Pt x y Iy) as (E0 & E1 & _); lia|intros x e H; destruct (El x e H)].
  - cbn. unfold in_heap. cbn. lia.
Qed.
Print Assumptions C61_no_error.
Print Assumptions C61_most_general.
Print Assumptions C61_ends.

(* C62, refuted: $0 = ((struct a : A; b : B), $0)# and $1 = ((struct b : B; a : A), $1)# are accepted; unifying $0 with $1
   then never ends, since the pair that differs in member order never compares equal and so is never linked. *)
Definition h5 : heap :=
  [Nvar None; Nstruct [(1%N, 8); (2%N, 9)]; Ntuple [1; 0]; Nptr 2; Nvar None; Nstruct [(2%N, 9); (1%N, 8)]; Ntuple [5; 4]; Nptr 6; Nprim 1%N; Nprim 2%N].
Definition s5 : state := link (link init 0 3) 4 7.
Lemma h5_loop f : unify h5 (10 + f) s5 0 4 = bind (bind (bind (unify h5 (8 + f) s5 0 4) Ok) (fun s => membunify h5 (unify h5 (8 + f)) (9 + f) s 2 6))
  (fun s => membunify h5 (unify h5 (9 + f)) (10 + f) s 3 7).
Proof. reflexivity. Qed.
Theorem C62_diverges_refuted : exists h cs s u v, declared h /\ one_parameter h /\ unify_all h 20 init cs = Ok s /\ forall f, unify h f s u v = Fuel.
Proof.
  exists h5, [(0, 3); (4, 7)], s5, 0, 4. split; [split; [|split]|split; [|split]].
  - intros x ms E. nodes E; injection E as <-; repeat constructor; cbn; intuition discriminate.
  - intros x ms E. nodes E.
  - intros x y n us t us' t' E. nodes E.
  - intros x y n n' E. nodes E.
  - vm_compute. reflexivity.
  - assert (K : forall n f, f < n -> unify h5 f s5 0 4 = Fuel); [|intros f; apply (K (S f)); lia].
    induction n as [|n IH]; intros f L; [lia|].
    do 10 (destruct f as [|f]; [vm_compute; reflexivity|]).
    change (S (S (S (S (S (S (S (S (S (S f)))))))))) with (10 + f). rewrite h5_loop. rewrite IH by lia. reflexivity.
Qed.
Print Assumptions C62_diverges_refuted.

(* C63: after any session that leaves all types finite, two types compare equal exactly if they are the same type. *)
Definition finite_now (h : heap) (l : links) : Prop :=
  exists size : tid -> nat, (forall x a, rep l x a -> size x = size a) /\ (forall x y, In y (parts (nodeof h x)) -> size y < size x).
Theorem C63_finite_partial h f cs s : unify_all h f init cs = Ok s -> finite_now h (tab s) ->
  forall a b, exists enough, forall g, enough <= g -> exists r s', tyeq h g s a b = Ok (r, s') /\ (r = true <-> same true h (tab s) a b).
Proof.
  intros H (size & Sz & Sp) a b. destruct (right_unify h size Sp f cs s H) as [T C]. specialize (C Sz).
  destruct (unify_all_bounded _ _ _ _ H) as [N Bd]. exists (N + 2 + size a). intros g L.
  destruct (tyeq_ans h (tab s) N Bd size Sz Sp g (cache s, [], []) a b ltac:(lia)) as [[r [[c1 av1] bv1]] E].
  exists r, (St (tab s) c1). unfold tyeq. rewrite E. split; [reflexivity|].
  pose proof (tyeq_exact h (tab s) T size (fun x y => sized_step size _ x y T Sz) Sp g (cache s) [] [] a b C ltac:(intros ? []) ltac:(intros ? [])) as X.
  rewrite E in X. cbn in X. tauto.
Qed.
Example h4_finite : match unify_all h4 20 init [(0, 3); (4, 5)] with
  | Ok s => finite_now h4 (tab s) /\ (exists s', tyeq h4 20 s 4 5 = Ok (true, s')) /\ (exists s', tyeq h4 20 s 4 3 = Ok (false, s')) | _ => False end.
Proof.
  destruct h4_solvable as (D & (Sol & NI & H) & C & (size & Z1 & Z2 & _) & _).
  pose proof (C61_most_general h4 S4 [(0, 3); (4, 5)] 20) as M. remember (unify_all h4 20 init [(0, 3); (4, 5)]) as r eqn:E.
  pose proof E as E'. vm_compute in E'. destruct r as [s| |]; try discriminate E'. split.
  - exists size. split; auto. intros x a R. apply Z1. apply (M s D); [split; auto|auto|]. exists a. split; auto. eapply rep_self; eauto.
  - injection E' as ->. split; eexists; vm_compute; reflexivity.
Qed.
(* Refuted for recursive types: $0 = ($1#, A), $1 = ($0#, B), $8 = ($9#, A), $9 = ($9#, B); $0 and $8 compare equal although
   following the pointers twice reaches A in one and B in the other. *)
Definition h6 : heap :=
  [Nvar None; Nvar None; Nptr 1; Nprim 1%N; Nprim 2%N; Ntuple [2; 3]; Nptr 0; Ntuple [6; 4]; Nvar None; Nvar None; Nptr 9; Ntuple [10; 3]; Ntuple [10; 4]].
Theorem C63_cyclic_refuted : exists h cs s a b s', declared h /\ unify_all h 20 init cs = Ok s /\ tyeq h 20 s a b = Ok (true, s') /\
  ~ same true h (tab s) a b /\ ~ same false h (tab s) a b.
Proof.
  exists h6, [(0, 5); (1, 7); (8, 11); (9, 12)], (link (link (link (link init 0 5) 1 7) 8 11) 9 12), 5, 11. eexists.
  split; [split; [|split]|split; [|split]].
  - intros x ms E. nodes E.
  - intros x ms E. nodes E.
  - intros x y n us t us' t' E. nodes E.
  - vm_compute. reflexivity.
  - vm_compute. reflexivity.
  - assert (K : forall strict, ~ same strict h6 (tab (link (link (link (link init 0 5) 1 7) 8 11) 9 12)) 5 11); [|auto].
    intros strict S.
    assert (R : forall x y, tab (link (link (link (link init 0 5) 1 7) 8 11) 9 12) x = Some y -> tab (link (link (link (link init 0 5) 1 7) 8 11) 9 12) y = None ->
      rep (tab (link (link (link (link init 0 5) 1 7) 8 11) 9 12)) x y) by (intros x y E E'; eapply rep_step; [exact E|now constructor]).
    destruct (same_inv _ _ _ _ _ 5 11 S ltac:(now constructor) ltac:(now constructor)) as [E|A]; [discriminate|].
    cbn [nodeof nth h6 alike] in A. inversion A as [|? ? ? ? A1 _]; subst. clear A S.
    destruct (same_inv _ _ _ _ _ 2 10 A1 ltac:(now constructor) ltac:(now constructor)) as [E|A]; [discriminate|]. cbn [nodeof nth h6 alike] in A. clear A1.
    destruct (same_inv _ _ _ _ _ 7 12 A ltac:(now apply R) ltac:(now apply R)) as [E|A']; [discriminate|]. cbn [nodeof nth h6 alike] in A'. clear A.
    inversion A' as [|? ? ? ? A1 _]; subst. clear A'.
    destruct (same_inv _ _ _ _ _ 6 10 A1 ltac:(now constructor) ltac:(now constructor)) as [E|A]; [discriminate|]. cbn [nodeof nth h6 alike] in A. clear A1.
    destruct (same_inv _ _ _ _ _ 5 12 A ltac:(now apply R) ltac:(now apply R)) as [E|A']; [discriminate|]. cbn [nodeof nth h6 alike] in A'. clear A.
    inversion A' as [|? ? ? ? _ A2]; subst. inversion A2 as [|? ? ? ? A3 _]; subst.
    destruct (same_inv _ _ _ _ _ 3 4 A3 ltac:(now constructor) ltac:(now constructor)) as [E|A]; [discriminate|]. cbn in A. discriminate A.
Qed.
Print Assumptions C63_finite_partial.
Print Assumptions C63_cyclic_refuted.
