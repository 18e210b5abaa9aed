From Verif Require Import Base ListX Sort_Model Sort_Spec Utf_Model Utf_Proofs Str_Model Str_Spec.
Open Scope N_scope.

(* ---------- occurrence ---------- *)
Lemma occurs_at_iff h n i : occurs_at h n i <->
  (i + length n <= length h)%nat /\ forall k, (k < length n)%nat -> nth_error h (i + k) = nth_error n k.
Proof.
  split.
  - intros (p & q & -> & <-). rewrite !app_length. split; [lia|]. intros k Hk.
    rewrite nth_error_app2 by lia. replace (length p + k - length p)%nat with k by lia. now apply nth_error_app1.
  - intros [Hl H]. exists (firstn i h), (skipn (i + length n) h). split; [|rewrite firstn_length; lia].
    rewrite <- (firstn_skipn i h) at 1. f_equal. rewrite <- (firstn_skipn (length n) (skipn i h)) at 1. f_equal.
    + apply nth_error_ext. intros k. rewrite nth_error_firstn. destruct (Nat.ltb_spec k (length n)) as [Hk|Hk].
      * rewrite <- (H k Hk). now rewrite nth_error_skipn.
      * symmetry. now apply nth_error_None.
    + now rewrite skipn_skipn.
Qed.

Lemma match_at_spec r : forall j h n i, (j + r = length n)%nat -> (i + length n <= length h)%nat ->
  exists b, match_at r j h n i = Some b /\ (b = true <-> forall k, (j <= k < length n)%nat -> nth_error h (i + k) = nth_error n k).
Proof.
  induction r as [|r IH]; intros j h n i Hj Hl; cbn [match_at].
  - exists true. split; auto. split; auto. intros _ k Hk. lia.
  - destruct (nth_error h (i + j)) as [a|] eqn:Ea; [|apply nth_error_None in Ea; lia].
    destruct (nth_error n j) as [b|] eqn:Eb; [|apply nth_error_None in Eb; lia].
    destruct (N.eqb_spec a b) as [->|Hne].
    + destruct (IH (S j) h n i) as (c & E & Hc); [lia..|]. exists c. split; auto. rewrite Hc. split.
      * intros H k Hk. destruct (Nat.eq_dec k j) as [->|]; [congruence|]. apply H. lia.
      * intros H k Hk. apply H. lia.
    + exists false. split; auto. split; [discriminate|]. intros H. specialize (H j ltac:(lia)). congruence.
Qed.
Lemma match_at_occurs h n i : (i + length n <= length h)%nat ->
  exists b, match_at (length n) 0 h n i = Some b /\ (b = true <-> occurs_at h n i).
Proof.
  intros Hl. destruct (match_at_spec (length n) 0 h n i eq_refl Hl) as (b & E & H). exists b. split; auto.
  rewrite H, occurs_at_iff. split; [intros Q; split; auto; intros; apply Q; lia|intros [_ Q] k Hk; apply Q; lia].
Qed.

Lemma find_up_spec r : forall i h n, (i + r = length h - length n + 1)%nat -> (length n <= length h)%nat ->
  match find_up r i h n with
  | At k => (i <= k)%nat /\ occurs_at h n k /\ forall j, (i <= j < k)%nat -> ~ occurs_at h n j
  | Nowhere => forall j, (i <= j)%nat -> ~ occurs_at h n j
  | Oob => False
  end.
Proof.
  induction r as [|r IH]; intros i h n Hi Hl; cbn [find_up].
  - intros j Hj (p & q & -> & <-). rewrite !app_length in *. lia.
  - destruct (match_at_occurs h n i) as (b & -> & Hb); [lia|]. destruct b.
    + split; auto. split; [now apply Hb|]. intros; lia.
    + assert (Hno : ~ occurs_at h n i) by (rewrite <- Hb; discriminate).
      specialize (IH (S i) h n ltac:(lia) Hl). destruct (find_up r (S i) h n) as [k| |]; auto.
      * destruct IH as (H1 & H2 & H3). split; [lia|]. split; auto. intros j Hj. destruct (Nat.eq_dec j i) as [->|]; auto. apply H3; lia.
      * intros j Hj. destruct (Nat.eq_dec j i) as [->|]; auto. apply IH; lia.
Qed.
Lemma find_down_spec r : forall h n, (r <= length h - length n + 1)%nat -> (length n <= length h)%nat ->
  match find_down r h n with
  | At k => (k < r)%nat /\ occurs_at h n k /\ forall j, (k < j < r)%nat -> ~ occurs_at h n j
  | Nowhere => forall j, (j < r)%nat -> ~ occurs_at h n j
  | Oob => False
  end.
Proof.
  induction r as [|i IH]; intros h n Hi Hl; cbn [find_down]; [intros; lia|].
  destruct (match_at_occurs h n i) as (b & -> & Hb); [lia|]. destruct b.
  - split; auto. split; [now apply Hb|]. intros; lia.
  - assert (Hno : ~ occurs_at h n i) by (rewrite <- Hb; discriminate).
    specialize (IH h n ltac:(lia) Hl). destruct (find_down i h n) as [k| |]; auto.
    + destruct IH as (H1 & H2 & H3). split; [lia|]. split; auto. intros j Hj. destruct (Nat.eq_dec j i) as [->|]; auto. apply H3; lia.
    + intros j Hj. destruct (Nat.eq_dec j i) as [->|]; auto. apply IH; lia.
Qed.

Lemma occurs_len h n i : occurs_at h n i -> (i + length n <= length h)%nat.
Proof. intros H. now apply occurs_at_iff in H. Qed.
Lemma occurs_nil h i : (i <= length h)%nat -> occurs_at h [] i.
Proof. intros H. apply occurs_at_iff. cbn. split; [lia|]. intros; lia. Qed.

Lemma strfind_spec h n : match strfind h n with At i => first_at h n i | Nowhere => ~ occurs h n | Oob => False end.
Proof.
  unfold strfind. destruct (Nat.ltb_spec (length h) (length n)) as [H|H].
  { intros [i Hi]. apply occurs_len in Hi. lia. }
  destruct ((length n =? 0)%nat && (length h =? 0)%nat) eqn:E.
  { apply andb_true_iff in E as [E1 E2]. apply Nat.eqb_eq in E1, E2. destruct n; [|discriminate]. split; [apply occurs_nil; lia|]. lia. }
  pose proof (find_up_spec (length h - length n + 1) 0 h n eq_refl H) as S. destruct (find_up _ 0 h n) as [i| |]; auto.
  - destruct S as (_ & S1 & S2). split; auto. intros j Hj. destruct (Nat.le_gt_cases i j); auto. exfalso. apply (S2 j); auto. lia.
  - intros [i Hi]. apply (S i); auto. lia.
Qed.
Lemma strrfind_spec h n : match strrfind h n with At i => last_at h n i | Nowhere => ~ occurs h n | Oob => False end.
Proof.
  unfold strrfind. destruct (Nat.ltb_spec (length h) (length n)) as [H|H].
  { intros [i Hi]. apply occurs_len in Hi. lia. }
  destruct ((length n =? 0)%nat && (length h =? 0)%nat) eqn:E.
  { apply andb_true_iff in E as [E1 E2]. apply Nat.eqb_eq in E1, E2. destruct n; [|discriminate]. split; [apply occurs_nil; lia|].
    intros j Hj. apply occurs_len in Hj. cbn in Hj. lia. }
  pose proof (find_down_spec (length h - length n + 1) h n ltac:(lia) H) as S. destruct (find_down _ h n) as [i| |]; auto.
  - destruct S as (S0 & S1 & S2). split; auto. intros j Hj. destruct (Nat.le_gt_cases j i); auto. exfalso. pose proof (occurs_len _ _ _ Hj). apply (S2 j); auto. lia.
  - intros [i Hi]. pose proof (occurs_len _ _ _ Hi). apply (S i); auto. lia.
Qed.

(* what strfind = At i means for the two slices taken *)
Lemma find_cut h n i : strfind h n = At i -> exists q, h = firstn i h ++ n ++ q /\ pre h i = Some (firstn i h) /\
  post h (i + length n) = Some q /\ first_at (firstn i h ++ n ++ q) n (length (firstn i h)) /\ length (firstn i h) = i.
Proof.
  intros E. pose proof (strfind_spec h n) as S. rewrite E in S. destruct S as [(p & q & Eh & Hp) Hmin].
  assert (Fp : firstn i h = p) by (rewrite Eh, <- Hp; apply firstn_app_exact).
  exists q. rewrite Fp. split; auto. unfold pre, post. pose proof Eh as El. apply (f_equal (@length N)) in El. rewrite !app_length in El.
  destruct (Nat.leb_spec i (length h)); [|lia]. destruct (Nat.leb_spec (i + length n) (length h)); [|lia].
  rewrite Fp. split; auto. split.
  - f_equal. rewrite Eh, <- Hp. rewrite skipn_app_exact'. apply skipn_app_exact.
  - rewrite Hp, <- Eh. split; auto. split; auto. exists p, q. auto.
Qed.

(* ---------- split ---------- *)
Lemma split_loop_spec d : d <> [] -> forall fuel s, (length s < fuel)%nat ->
  exists ps, split_loop fuel s d = Done ps /\ cut d s ps.
Proof.
  intros Hd. induction fuel as [|fuel IH]; intros s Hf; [lia|]. cbn [split_loop].
  destruct (strfind s d) as [i| |] eqn:E.
  - destruct (find_cut s d i E) as (q & Es & -> & -> & F & L).
    assert (length d <> 0)%nat by (destruct d; [congruence|cbn; lia]).
    destruct (IH q) as (ps & -> & C). { apply (f_equal (@length N)) in Es. rewrite !app_length in Es. lia. }
    exists (firstn i s :: ps). split; auto. rewrite Es at 1. constructor; auto.
  - pose proof (strfind_spec s d) as S. rewrite E in S. exists [s]. split; auto. now constructor.
  - pose proof (strfind_spec s d) as S. rewrite E in S. contradiction.
Qed.
Lemma cut_nonempty d s ps : cut d s ps -> ps <> [].
Proof. destruct 1; discriminate. Qed.
Lemma joined_cons x ps d : ps <> [] -> joined (x :: ps) d = x ++ d ++ joined ps d.
Proof. destruct ps; [congruence|]. reflexivity. Qed.
Lemma cut_joined d s ps : cut d s ps -> joined ps d = s.
Proof. induction 1 as [s H|p r ps F C IH]; [reflexivity|]. rewrite joined_cons by (eapply cut_nonempty; eauto). now rewrite IH. Qed.
Lemma cut_pieces d s ps : d <> [] -> cut d s ps -> forall p, In p ps -> ~ occurs p d.
Proof.
  intros Hd. induction 1 as [s H|p r ps F C IH]; intros x [<-|Hx]; auto.
  intros [i Hi]. destruct F as [_ F]. assert (Li := occurs_len _ _ _ Hi).
  assert (O : occurs_at (p ++ d ++ r) d i).
  { destruct Hi as (a & b & -> & <-). exists a, (b ++ d ++ r). split; auto. rewrite <- !app_assoc. reflexivity. }
  apply F in O. destruct d; [congruence|]. cbn in Li. lia.
Qed.
Lemma cut_unique d s ps : d <> [] -> cut d s ps -> forall qs, cut d s qs -> ps = qs.
Proof.
  intros Hd. induction 1 as [s H|p r ps F C IH]; intros qs Q.
  - inversion Q as [|p r qs' F C]; subst; auto. exfalso. apply H. destruct F as [F _]. eexists; eauto.
  - inversion Q as [s' H Es|p' r' qs' F' C' Es]; subst.
    + exfalso. apply H. destruct F as [F _]. eexists; eauto.
    + assert (L : length p' = length p).
      { destruct F as [F1 F2], F' as [F1' F2']. rewrite Es in F1', F2'. apply F2 in F1'. apply F2' in F1. lia. }
      destruct (app_inj_len _ _ _ _ L Es) as [-> E2]. destruct (app_inj_len _ _ _ _ eq_refl E2) as [_ ->]. f_equal. auto.
Qed.

Lemma split_empty_delim fuel : forall s, split_loop fuel s [] = OutOfFuel.
Proof.
  induction fuel as [|fuel IH]; intros s; [reflexivity|]. cbn [split_loop].
  assert (strfind s [] = At 0) as ->. { unfold strfind. destruct s; [reflexivity|]. reflexivity. }
  unfold pre, post. cbn [length Nat.add]. rewrite !(proj2 (Nat.leb_le 0 (length s))) by lia. cbn [skipn]. rewrite IH. reflexivity.
Qed.
Lemma bysplit_empty_delim fuel : forall s, bysplit fuel s [] = OutOfFuel.
Proof.
  induction fuel as [|fuel IH]; intros s; [reflexivity|]. cbn [bysplit].
  assert (strfind s [] = At 0) as ->. { unfold strfind. destruct s; [reflexivity|]. reflexivity. }
  unfold pre, post. cbn [length Nat.add]. rewrite !(proj2 (Nat.leb_le 0 (length s))) by lia. cbn [skipn]. rewrite IH. reflexivity.
Qed.

(* bounded split *)
Lemma bsplit_loop_spec d cap : d <> [] -> forall fuel s idx, (length s < fuel)%nat -> (idx < cap)%nat ->
  exists ps, bsplit_loop fuel cap idx s d = Done ps /\ (idx + length ps <= cap)%nat /\ joined ps d = s /\ ps <> [] /\
    (forall qs, cut d s qs -> removelast ps = firstn (length ps - 1) qs /\ (idx + length qs <= cap -> ps = qs)%nat).
Proof.
  intros Hd. induction fuel as [|fuel IH]; intros s idx Hf Hi; [lia|]. cbn [bsplit_loop].
  destruct (Nat.ltb_spec idx cap); [|lia].
  destruct (strfind s d) as [i| |] eqn:E.
  - destruct (find_cut s d i E) as (q & Es & -> & -> & F & L).
    assert (length d <> 0)%nat by (destruct d; [congruence|cbn; lia]).
    destruct (Z.ltb_spec (Z.of_nat idx) (Z.of_nat cap - 1)).
    + destruct (IH q (S idx)) as (ps & -> & L1 & J & Ne & U); [|lia|].
      { apply (f_equal (@length N)) in Es. rewrite !app_length in Es. lia. }
      exists (firstn i s :: ps). split; auto. split; [cbn; lia|]. split; [rewrite joined_cons, J by auto; now symmetry|]. split; [discriminate|].
      intros qs Q. destruct (split_loop_spec d Hd (S (length q)) q ltac:(lia)) as (rs & _ & R).
      assert (qs = firstn i s :: rs). { apply (cut_unique d s); auto. rewrite Es at 1. constructor; auto. }
      subst qs. destruct (U rs R) as [U1 U2]. split.
      * destruct ps as [|x ps]; [congruence|]. cbn [removelast length Nat.sub firstn] in *. rewrite U1. now rewrite Nat.sub_0_r.
      * cbn [length]. intros Hc. f_equal. apply U2. lia.
    + exists [s]. split; auto. split; [cbn; lia|]. split; auto. split; [discriminate|]. intros qs Q. split; [reflexivity|].
      intros Hc. inversion Q as [|p r rs F' C']; subst; auto. apply cut_nonempty in C'. destruct rs; [congruence|]. cbn in Hc. lia.
  - pose proof (strfind_spec s d) as S. rewrite E in S. exists [s]. split; auto. split; [cbn; lia|]. split; auto. split; [discriminate|].
    intros qs Q. split; auto. intros _. apply (cut_unique d s); auto. now constructor.
  - pose proof (strfind_spec s d) as S. rewrite E in S. contradiction.
Qed.

(* iterator *)
Definition drop_last_empty (ps : list (list N)) : list (list N) :=
  match last ps [] with [] => removelast ps | _ => ps end.
Lemma find_empty d : d <> [] -> strfind [] d = Nowhere.
Proof. intros H. unfold strfind. destruct d; [congruence|]. reflexivity. Qed.
Lemma bysplit_spec d : d <> [] -> forall fuel s, (length s + 1 < fuel)%nat ->
  exists ps, cut d s ps /\ bysplit fuel s d = Done (drop_last_empty ps).
Proof.
  intros Hd. induction fuel as [|fuel IH]; intros s Hf; [lia|]. cbn [bysplit].
  destruct (strfind s d) as [i| |] eqn:E.
  - destruct (find_cut s d i E) as (q & Es & -> & -> & F & L).
    assert (length d <> 0)%nat by (destruct d; [congruence|cbn; lia]).
    destruct (IH q) as (ps & C & ->). { apply (f_equal (@length N)) in Es. rewrite !app_length in Es. lia. }
    exists (firstn i s :: ps). split; [rewrite Es at 1; constructor; auto|]. cbn [ocons]. f_equal. unfold drop_last_empty.
    apply cut_nonempty in C. destruct ps as [|x ps]; [congruence|]. change (last (firstn i s :: x :: ps) []) with (last (x :: ps) []).
    destruct (last (x :: ps) []); reflexivity.
  - pose proof (strfind_spec s d) as S. rewrite E in S. exists [s]. split; [now constructor|].
    destruct (Nat.ltb_spec 0 (length s)) as [Hs|Hs].
    + destruct fuel as [|fuel]; [lia|]. cbn [bysplit]. rewrite find_empty by auto. cbn. destruct s; [cbn in Hs; lia|]. reflexivity.
    + destruct s; [reflexivity|cbn in Hs; lia].
  - pose proof (strfind_spec s d) as S. rewrite E in S. contradiction.
Qed.

(* ---------- join ---------- *)
Lemma joinlen_fold strings : forall a, fold_left (fun a (x : list N) => (a + length x)%nat) strings a = (a + length (concat strings))%nat.
Proof. induction strings as [|x l IH]; intros a; cbn [fold_left concat]; [cbn; lia|]. rewrite IH, app_length. lia. Qed.
Lemma joined_length strings d : length (joined strings d) = joinlen strings d.
Proof.
  unfold joinlen. rewrite joinlen_fold. induction strings as [|x l IH]; [reflexivity|].
  destruct l as [|y l].
  - cbn [joined concat length Nat.sub Nat.mul]. rewrite app_nil_r. destruct (Nat.ltb_spec 0 1); lia.
  - rewrite joined_cons by discriminate. rewrite !app_length, IH. cbn [concat]. rewrite !app_length. cbn [length].
    destruct (Nat.ltb_spec 0 (S (length l))); [|lia]. destruct (Nat.ltb_spec 0 (S (S (length l)))); [|lia]. nia.
Qed.
Lemma blit_app done x rest : blit (done ++ rest) (length done) x =
  if (length x <=? length rest)%nat then Some ((done ++ x) ++ skipn (length x) rest) else None.
Proof.
  unfold blit. rewrite app_length. destruct (Nat.leb_spec (length x) (length rest)), (Nat.leb_spec (length done + length x) (length done + length rest)); try lia; auto.
  f_equal. rewrite firstn_app_exact, skipn_app_exact', <- app_assoc. reflexivity.
Qed.
Lemma join_loop_spec d strings : forall done rest, length rest = length (joined strings d) ->
  join_loop strings d (done ++ rest) (length done) = Done (done ++ joined strings d).
Proof.
  induction strings as [|x l IH]; intros done rest H; cbn [join_loop].
  - cbn in *. destruct rest; [reflexivity|discriminate].
  - rewrite blit_app. destruct l as [|y l].
    + cbn [joined] in *. rewrite H, Nat.leb_refl. rewrite <- H, skipn_all. cbn. now rewrite app_nil_r.
    + rewrite joined_cons in * by discriminate. rewrite !app_length in H.
      destruct (Nat.leb_spec (length x) (length rest)); [|lia].
      rewrite <- app_length. rewrite blit_app. rewrite skipn_length.
      destruct (Nat.leb_spec (length d) (length rest - length x)); [|lia].
      rewrite <- app_length. rewrite IH; [|rewrite !skipn_length; lia]. now rewrite <- !app_assoc.
Qed.
Lemma strjoin_spec junk strings d : strjoin junk strings d = Done (joined strings d).
Proof.
  unfold strjoin. apply (join_loop_spec d strings [] (map junk (seq 0 (joinlen strings d)))). rewrite map_length, seq_length. symmetry. apply joined_length.
Qed.

(* ---------- replace ---------- *)
Lemma replace_loop_spec n r : n <> [] -> forall fuel h ret, (length h < fuel)%nat ->
  exists ps, cut n h ps /\ replace_loop fuel h n r ret = Done (ret ++ joined ps r).
Proof.
  intros Hn. induction fuel as [|fuel IH]; intros h ret Hf; [lia|]. cbn [replace_loop].
  destruct (strfind h n) as [i| |] eqn:E.
  - destruct (find_cut h n i E) as (q & Es & -> & -> & F & L).
    assert (length n <> 0)%nat by (destruct n; [congruence|cbn; lia]).
    destruct (IH q ((ret ++ firstn i h) ++ r)) as (ps & C & ->). { apply (f_equal (@length N)) in Es. rewrite !app_length in Es. lia. }
    exists (firstn i h :: ps). split; [rewrite Es at 1; constructor; auto|]. f_equal. rewrite joined_cons by (eapply cut_nonempty; eauto). now rewrite <- !app_assoc.
  - pose proof (strfind_spec h n) as S. rewrite E in S. exists [h]. split; [now constructor|]. reflexivity.
  - pose proof (strfind_spec h n) as S. rewrite E in S. contradiction.
Qed.

(* ---------- comparison ---------- *)
Fixpoint lexcmp (a b : list N) : order :=
  match a, b with
  | [], [] => Equal
  | [], _ => Before
  | _, [] => After
  | x :: a, y :: b => if x <? y then Before else if y <? x then After else lexcmp a b
  end.
Lemma cmp_loop_spec a : forall b p q, length p = length q ->
  match cmp_loop (Nat.min (length a) (length b)) (length p) (p ++ a) (q ++ b) with
  | Some o => lexcmp a b = o
  | None => lexcmp a b = if (length a <? length b)%nat then Before else if (length b <? length a)%nat then After else Equal
  end.
Proof.
  induction a as [|x a IH]; intros [|y b] p q HL; cbn [length Nat.min cmp_loop lexcmp]; try reflexivity.
  rewrite app_nth2, Nat.sub_diag by lia. rewrite (app_nth2 q), HL, Nat.sub_diag by lia. cbn [nth].
  destruct (x <? y); [reflexivity|]. destruct (y <? x); [reflexivity|].
  specialize (IH b (p ++ [x]) (q ++ [y])). rewrite !app_length, HL, Nat.add_comm, <- !app_assoc in IH. cbn [length app Nat.add] in IH.
  specialize (IH ltac:(lia)). change (S (length a) <? S (length b))%nat with (length a <? length b)%nat. change (S (length b) <? S (length a))%nat with (length b <? length a)%nat. exact IH.
Qed.
Lemma strcmp_lex a b : strcmp a b = lexcmp a b.
Proof.
  unfold strcmp. pose proof (cmp_loop_spec a b [] [] eq_refl) as H. cbn [app length] in H. destruct (cmp_loop _ 0 a b); now symmetry.
Qed.
Lemma lexcmp_refl a : lexcmp a a = Equal.
Proof. induction a as [|x a IH]; cbn; auto. now rewrite N.ltb_irrefl. Qed.
Lemma lexcmp_app p a b : lexcmp (p ++ a) (p ++ b) = lexcmp a b.
Proof. induction p as [|x p IH]; cbn; auto. now rewrite N.ltb_irrefl. Qed.
Lemma lexcmp_flip a : forall b, lexcmp a b = Before <-> lexcmp b a = After.
Proof.
  induction a as [|x a IH]; intros [|y b]; cbn; try (split; (discriminate || reflexivity)).
  destruct (N.ltb_spec x y), (N.ltb_spec y x); try lia; try (split; (discriminate || reflexivity)). apply IH.
Qed.
Lemma lexcmp_eq a : forall b, lexcmp a b = Equal <-> a = b.
Proof.
  induction a as [|x a IH]; intros [|y b]; cbn; try (split; (discriminate || reflexivity)).
  destruct (N.ltb_spec x y); [split; [discriminate|intros E; injection E; lia]|].
  destruct (N.ltb_spec y x); [split; [discriminate|intros E; injection E; lia]|].
  assert (x = y) by lia. subst. rewrite IH. split; [intros ->; auto|congruence].
Qed.
Lemma lexcmp_before a b : lexcmp a b = Before <-> lex_before a b.
Proof.
  split.
  - revert b; induction a as [|x a IH]; intros [|y b]; cbn; try discriminate.
    + intros _. apply (lex_prefix []).
    + destruct (N.ltb_spec x y); [intros _; now apply (lex_diff [])|]. destruct (N.ltb_spec y x); [discriminate|].
      intros H1. apply IH in H1. assert (x = y) by lia. subst. destruct H1 as [a z r|p u v a b Huv].
      * apply (lex_prefix (y :: a)).
      * now apply (lex_diff (y :: p)).
  - destruct 1 as [a y r|p x y a b Hxy].
    + rewrite <- (app_nil_r a) at 1. rewrite lexcmp_app. reflexivity.
    + rewrite lexcmp_app. cbn. destruct (N.ltb_spec x y); [reflexivity|lia].
Qed.
Lemma lexcmp_orders : orders lexcmp.
Proof.
  split; [intros a b; apply lexcmp_flip|].
  intros a; induction a as [|x a IH]; intros [|y b] [|z c]; cbn; try congruence.
  destruct (N.ltb_spec x y), (N.ltb_spec y x), (N.ltb_spec y z), (N.ltb_spec z y), (N.ltb_spec x z), (N.ltb_spec z x); try lia; try congruence. apply IH.
Qed.

Lemma firstn_min {A} (l : list A) n : firstn (Nat.min (length l) n) l = firstn n l.
Proof. destruct (Nat.min_spec (length l) n) as [[H ->]|[H ->]]; auto. rewrite firstn_all, firstn_all2; auto. lia. Qed.
Lemma strncmp_lex a b n : strncmp a b n = lexcmp (firstn n a) (firstn n b).
Proof. unfold strncmp. now rewrite strcmp_lex, !firstn_min. Qed.
Lemma hasprefix_spec s p : hasprefix s p = true <-> prefix_of p s.
Proof.
  unfold hasprefix. rewrite strncmp_lex, firstn_all.
  assert (E : (match lexcmp (firstn (length p) s) p with Equal => true | _ => false end = true) <-> lexcmp (firstn (length p) s) p = Equal).
  { destruct (lexcmp _ _); split; congruence. }
  rewrite E, lexcmp_eq. unfold prefix_of. split.
  - intros H. exists (skipn (length p) s). rewrite <- H at 1. symmetry. apply firstn_skipn.
  - intros [r ->]. apply firstn_app_exact.
Qed.
Lemma memeq_spec a : forall b, length a = length b -> (memeq a b = true <-> a = b).
Proof.
  induction a as [|x a IH]; intros [|y b] HL; cbn in *; try discriminate; [split; auto|].
  injection HL as HL. rewrite andb_true_iff, N.eqb_eq, (IH b HL). split; [intros [-> ->]; auto|intros E; injection E; auto].
Qed.
Lemma sleq_spec a b : sleq a b = true <-> a = b.
Proof.
  unfold sleq. destruct (Nat.eqb_spec (length a) (length b)) as [H|H]; [now apply memeq_spec|]. split; [discriminate|congruence].
Qed.
Lemma hassuffix_spec s p : hassuffix s p = true <-> suffix_of p s.
Proof.
  unfold hassuffix, suffix_of. destruct (Nat.leb_spec (length p) (length s)) as [H|H].
  - rewrite sleq_spec. split.
    + intros E. exists (firstn (length s - length p) s). symmetry. etransitivity; [|apply (firstn_skipn (length s - length p))]. now rewrite E.
    + intros [r ->]. rewrite app_length. replace (length r + length p - length p)%nat with (length r) by lia. apply skipn_app_exact.
  - split; [discriminate|]. intros [r ->]. rewrite app_length in H. lia.
Qed.

(* case-insensitive *)
Lemma strcasecmp_spec up fuel : forall a b, (length a < fuel)%nat -> (length b < fuel)%nat ->
  exists ca cb, bychar fuel a = Some ca /\ bychar fuel b = Some cb /\ strcasecmp up fuel a b = Some (lexcmp (map up ca) (map up cb)).
Proof.
  induction fuel as [|fuel IH]; intros a b Ha Hb; [lia|]. cbn [strcasecmp].
  destruct a as [|x a].
  - destruct (bychar_terminates (S fuel) b Hb) as [cb Eb]. exists [], cb. split; [reflexivity|]. split; auto. cbn [length Nat.ltb andb].
    change (0 <? 0)%nat with false. cbn [andb]. destruct b as [|y b]; [cbn in Eb; injection Eb as <-; reflexivity|].
    cbn [length]. destruct (Nat.ltb_spec 0 (S (length b))); [|lia].
    cbn [bychar] in Eb. destruct (charstep (y :: b)) as [c r]. destruct (bychar fuel r); [|discriminate]. injection Eb as <-. reflexivity.
  - destruct b as [|y b].
    + destruct (bychar_terminates (S fuel) (x :: a) Ha) as [ca Ea]. exists ca, []. split; auto. split; [reflexivity|]. cbn [length].
      change (0 <? 0)%nat with false. rewrite andb_false_r. destruct (Nat.ltb_spec (S (length a)) 0); [lia|]. destruct (Nat.ltb_spec 0 (S (length a))); [|lia].
      cbn [bychar] in Ea. destruct (charstep (x :: a)) as [c r]. destruct (bychar fuel r); [|discriminate]. injection Ea as <-. reflexivity.
    + cbn [length]. destruct (Nat.ltb_spec 0 (S (length a))); [|lia]. destruct (Nat.ltb_spec 0 (S (length b))); [|lia]. cbn [andb bychar].
      destruct (charstep_progress (x :: a)) as (n & Hn & En & _); [discriminate|].
      destruct (charstep_progress (y :: b)) as (m & Hm & Em & _); [discriminate|].
      destruct (charstep (x :: a)) as [c1 r1], (charstep (y :: b)) as [c2 r2]. cbn [snd] in *.
      destruct (IH r1 r2) as (ca & cb & -> & -> & E); [subst; rewrite skipn_length; lia..|].
      exists (c1 :: ca), (c2 :: cb). split; auto. split; auto. cbn [map lexcmp].
      destruct (up c1 <? up c2); auto. destruct (up c2 <? up c1); auto.
Qed.
