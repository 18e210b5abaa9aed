(* C34 (substring search), C35 (split, join, replace), C36 (comparison, prefix, suffix). *)
From Verif Require Import Base ListX Sort_Model Sort_Spec Sort_Props Utf_Model Utf_Proofs Str_Model Str_Spec Str_Proofs.
Open Scope N_scope.

(* C34: strfind gives the least offset at which the needle occurs, strrfind the greatest; they report nothing exactly
   when it does not occur; neither ever indexes out of bounds. *)
Theorem C34_strfind_first h n : match strfind h n with At i => first_at h n i | Nowhere => ~ occurs h n | Oob => False end.
Proof. exact (strfind_spec h n). Qed.
Print Assumptions C34_strfind_first.
Theorem C34_strrfind_last h n : match strrfind h n with At i => last_at h n i | Nowhere => ~ occurs h n | Oob => False end.
Proof. exact (strrfind_spec h n). Qed.
Print Assumptions C34_strrfind_last.
Theorem C34_strhas h n : strhas h n = true <-> occurs h n.
Proof.
  unfold strhas. pose proof (strfind_spec h n) as H. destruct (strfind h n); split; try congruence; try contradiction.
  intros _. destruct H as [H _]. eexists; eauto.
Qed.
Print Assumptions C34_strhas.
Example C34_case : strfind [1;2;1;2;1] [1;2;1] = At 0 /\ strrfind [1;2;1;2;1] [1;2;1] = At 2 /\ strfind [1;2] [2;1] = Nowhere.
Proof. repeat split. Qed.

(* C35: strsplit cuts the string at the successive leftmost occurrences of a non-empty delimiter (the empty string
   has no pieces); joining the pieces with the delimiter gives the string back; no piece contains the delimiter. *)
Lemma split_correct s d : d <> [] -> exists ps, strsplit (S (length s)) s d = Done ps /\
  (s <> [] -> cut d s ps) /\ (s = [] -> ps = []) /\ joined ps d = s /\ forall p, In p ps -> ~ occurs p d.
Proof.
  intros Hd. unfold strsplit. destruct (Nat.eqb_spec (length s) 0) as [H|H].
  - destruct s; [|discriminate]. exists []. split; auto. split; [congruence|]. split; auto.
  - destruct (split_loop_spec d Hd (S (length s)) s ltac:(lia)) as (ps & E & C). exists ps. split; auto. split; auto.
    split; [intros ->; cbn in H; lia|]. split; [now apply cut_joined|]. now apply (cut_pieces d s).
Qed.
Theorem C35_split s d : d <> [] -> exists ps, strsplit (S (length s)) s d = Done ps /\
  (s <> [] -> cut d s ps) /\ (s = [] -> ps = []) /\ joined ps d = s /\ forall p, In p ps -> ~ occurs p d.
Proof. exact (split_correct s d). Qed.
Print Assumptions C35_split.

(* C35: strjoin writes exactly the strings separated by the delimiter, whatever the fresh memory held, and never
   writes outside it. *)
Theorem C35_join junk strings d : strjoin junk strings d = Done (joined strings d).
Proof. exact (strjoin_spec junk strings d). Qed.
Print Assumptions C35_join.
Theorem C35_strcat junk a b : strcat junk a b = Done (a ++ b).
Proof. unfold strcat. rewrite strjoin_spec. reflexivity. Qed.
Print Assumptions C35_strcat.

(* C35: splitting then joining, through the two functions only, is the identity *)
Theorem C35_split_join junk s d : d <> [] -> exists ps, strsplit (S (length s)) s d = Done ps /\ strjoin junk ps d = Done s.
Proof.
  intros Hd. destruct (split_correct s d Hd) as (ps & E & _ & _ & J & _). exists ps. split; auto. now rewrite strjoin_spec, J.
Qed.
Print Assumptions C35_split_join.
Example C35_case : strsplit 9 [1;9;9;2;9] [9] = Done [[1];[];[2];[]] /\ strjoin (fun _ => 77) [[1];[];[2];[]] [9] = Done [1;9;9;2;9].
Proof. split; reflexivity. Qed.

(* C35: strreplace is the pieces of the haystack cut at the needle, joined with the replacement. *)
Lemma replace_correct h n r : n <> [] -> exists ps, cut n h ps /\ strreplace (S (length h)) h n r = Done (joined ps r).
Proof.
  intros Hn. unfold strreplace. destruct n as [|x n]; [congruence|]. cbn [length]. destruct (Nat.ltb_spec 0 (S (length n))); [|lia].
  destruct (replace_loop_spec (x :: n) r Hn (S (length h)) h [] ltac:(lia)) as (ps & C & E). exists ps. split; auto.
Qed.
Theorem C35_replace h n r : n <> [] -> exists ps, cut n h ps /\ strreplace (S (length h)) h n r = Done (joined ps r).
Proof. exact (replace_correct h n r). Qed.
Print Assumptions C35_replace.
Theorem C35_cut_is_unique d s ps qs : d <> [] -> cut d s ps -> cut d s qs -> ps = qs.
Proof. intros Hd C. exact (cut_unique d s ps Hd C qs). Qed.
Print Assumptions C35_cut_is_unique.
Example C35_replace_case : strreplace 9 [1;2;1;2;1;5] [1;2] [7;7;7] = Done [7;7;7;7;7;7;1;5].
Proof. reflexivity. Qed.

(* C35: bstrsplit into an array of cap >= 1 entries: at most cap pieces, joining them gives the string back, all but
   the last are the pieces strsplit produces, and all are when they fit.  With no entries it aborts. *)
Lemma bsplit_correct s d cap : d <> [] -> (0 < cap)%nat -> exists ps, bstrsplit (S (length s)) cap s d = Done ps /\
  (length ps <= cap)%nat /\ joined ps d = s /\
  forall qs, s <> [] -> cut d s qs -> removelast ps = firstn (length ps - 1) qs /\ ((length qs <= cap)%nat -> ps = qs).
Proof.
  intros Hd Hc. unfold bstrsplit. destruct (Nat.eqb_spec (length s) 0) as [H|H].
  - destruct s; [|discriminate]. exists []. split; auto. split; [cbn; lia|]. split; auto. congruence.
  - destruct (bsplit_loop_spec d cap Hd (S (length s)) s 0 ltac:(lia) Hc) as (ps & E & L & J & _ & U). exists ps. split; auto. split; [lia|]. split; auto. intros qs _ Q. now apply U.
Qed.
Theorem C35_bounded_split s d cap : d <> [] -> (0 < cap)%nat -> exists ps, bstrsplit (S (length s)) cap s d = Done ps /\
  (length ps <= cap)%nat /\ joined ps d = s /\
  forall qs, s <> [] -> cut d s qs -> removelast ps = firstn (length ps - 1) qs /\ ((length qs <= cap)%nat -> ps = qs).
Proof. exact (bsplit_correct s d cap). Qed.
Print Assumptions C35_bounded_split.
Example C35_bounded_case : bstrsplit 9 2 [1;9;2;9;3] [9] = Done [[1];[2;9;3]] /\ bstrsplit 9 0 [1] [9] = Abort.
Proof. split; reflexivity. Qed.

(* C35: iterating with bysplit visits the same pieces, except that a final empty piece is not visited. *)
Theorem C35_split_iterator s d : d <> [] -> exists ps, cut d s ps /\
  bysplit (S (S (length s))) s d = Done (match last ps [] with [] => removelast ps | _ => ps end).
Proof. intros Hd. apply (bysplit_spec d Hd). lia. Qed.
Print Assumptions C35_split_iterator.
Theorem C35_iterator_agrees_refuted : exists s d, d <> [] /\ s <> [] /\ exists ps qs,
  strsplit (S (length s)) s d = Done ps /\ bysplit (S (S (length s))) s d = Done qs /\ ps <> qs.
Proof. exists [1;9], [9]. split; [discriminate|]. split; [discriminate|]. do 2 eexists. repeat split; [reflexivity..|discriminate]. Qed.
Print Assumptions C35_iterator_agrees_refuted.

(* C35: an empty delimiter makes strsplit (of a non-empty string) and bysplit run forever. *)
Theorem C35_empty_delimiter_refuted : forall s fuel, (s <> [] -> strsplit fuel s [] = OutOfFuel) /\ bysplit fuel s [] = OutOfFuel.
Proof.
  intros s fuel. split; [|apply bysplit_empty_delim]. intros H. unfold strsplit. destruct s; [congruence|]. apply split_empty_delim.
Qed.
Print Assumptions C35_empty_delimiter_refuted.

(* C36: strcmp decides byte-wise lexicographic order: it is Equal exactly on identical strings, Before exactly when the
   first argument comes first, After exactly when the second does; so it is an ordering comparison in the sense of C30. *)
Lemma strcmp_correct a b : (strcmp a b = Equal <-> a = b) /\ (strcmp a b = Before <-> lex_before a b) /\ (strcmp a b = After <-> lex_before b a).
Proof.
  rewrite !strcmp_lex. split; [apply lexcmp_eq|]. split; [apply lexcmp_before|]. rewrite <- lexcmp_before. symmetry. apply lexcmp_flip.
Qed.
Theorem C36_strcmp_lexicographic a b :
  (strcmp a b = Equal <-> a = b) /\ (strcmp a b = Before <-> lex_before a b) /\ (strcmp a b = After <-> lex_before b a).
Proof. exact (strcmp_correct a b). Qed.
Print Assumptions C36_strcmp_lexicographic.
Lemma strcmp_ord : orders strcmp.
Proof. split; intros; rewrite !strcmp_lex in *; [apply lexcmp_flip|eapply (proj2 lexcmp_orders); eauto]. Qed.
Theorem C36_strcmp_orders : orders strcmp.
Proof. exact strcmp_ord. Qed.
Print Assumptions C36_strcmp_orders.
Example C36_case : strcmp [1;2;3] [1;3] = Before /\ strcmp [1;2] [1;2;0] = Before /\ strcmp [200] [7;7] = After /\
  sort strcmp [] [[2];[1;5];[];[1]] = Some [[];[1];[1;5];[2]].
Proof. repeat split. Qed.

(* C36: strncmp compares the first n bytes *)
Theorem C36_strncmp a b n : strncmp a b n = strcmp (firstn n a) (firstn n b).
Proof. now rewrite strncmp_lex, strcmp_lex. Qed.
Print Assumptions C36_strncmp.
(* C36: prefix and suffix tests; chomp removes exactly the prefix *)
Theorem C36_hasprefix s p : hasprefix s p = true <-> prefix_of p s.
Proof. exact (hasprefix_spec s p). Qed.
Print Assumptions C36_hasprefix.
Theorem C36_hassuffix s p : hassuffix s p = true <-> suffix_of p s.
Proof. exact (hassuffix_spec s p). Qed.
Print Assumptions C36_hassuffix.
Theorem C36_sleq a b : sleq a b = true <-> a = b.
Proof. exact (sleq_spec a b). Qed.
Print Assumptions C36_sleq.
Lemma chomp_correct s p s' ok : chomp s p = (s', ok) -> (ok = true /\ s = p ++ s') \/ (ok = false /\ s' = s /\ ~ prefix_of p s).
Proof.
  unfold chomp. destruct (hasprefix s p) eqn:E; intros H; injection H as <- <-.
  - left. split; auto. apply hasprefix_spec in E as [r ->]. now rewrite skipn_app_exact.
  - right. repeat split; auto. rewrite <- hasprefix_spec. congruence.
Qed.
Theorem C36_chomp s p s' ok : chomp s p = (s', ok) -> (ok = true /\ s = p ++ s') \/ (ok = false /\ s' = s /\ ~ prefix_of p s).
Proof. exact (chomp_correct s p s' ok). Qed.
Print Assumptions C36_chomp.
Example C36_prefix_case : hasprefix [1;2;3] [1;2] = true /\ hasprefix [1] [1;2] = false /\ hassuffix [1;2;3] [2;3] = true /\ chomp [1;2;3] [1] = ([2;3], true).
Proof. repeat split. Qed.

(* C36: strcasecmp compares, lexicographically, the upper-cased characters of the two strings, whatever the case table;
   so it too is an ordering comparison. *)
Theorem C36_strcasecmp up a b : exists ca cb, bychar (S (length a + length b)) a = Some ca /\ bychar (S (length a + length b)) b = Some cb /\
  strcasecmp up (S (length a + length b)) a b = Some (strcmp (map up ca) (map up cb)).
Proof.
  destruct (strcasecmp_spec up (S (length a + length b)) a b ltac:(lia) ltac:(lia)) as (ca & cb & E1 & E2 & E3).
  exists ca, cb. rewrite strcmp_lex. auto.
Qed.
Print Assumptions C36_strcasecmp.
Example C36_casecmp_case : strcasecmp (fun c => if (97 <=? c) && (c <=? 122) then c - 32 else c) 20 [97;66] [65;98] = Some Equal.
Proof. reflexivity. Qed.
