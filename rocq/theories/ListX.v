(* List lemmas missing from the standard library of Coq 8.16.  Nothing here models repository code. *)
From Verif Require Import Base.

Lemma nth_error_skipn {A} (l : list A) : forall n k, nth_error (skipn n l) k = nth_error l (n + k).
Proof. induction l as [|x l IH]; intros [|n] k; cbn; auto. destruct k; reflexivity. Qed.
Lemma nth_error_firstn {A} (l : list A) : forall n k, nth_error (firstn n l) k = if k <? n then nth_error l k else None.
Proof.
  induction l as [|x l IH]; intros [|n] [|k]; cbn [firstn nth_error]; auto.
  - destruct (_ <? _); reflexivity.
  - rewrite IH. change (S k <? S n) with (k <? n). reflexivity.
Qed.
Lemma nth_error_ext {A} (l : list A) : forall m, (forall k, nth_error l k = nth_error m k) -> l = m.
Proof.
  induction l as [|x l IH]; intros [|y m] H; auto; try (specialize (H 0); discriminate).
  f_equal; [specialize (H 0); cbn in H; congruence|]. apply IH. intros k. exact (H (S k)).
Qed.
Lemma skipn_skipn {A} (l : list A) : forall n m, skipn n (skipn m l) = skipn (m + n) l.
Proof. induction l as [|x l IH]; intros n [|m]; cbn; auto. destruct n; reflexivity. Qed.
Lemma firstn_length_le {A} (l : list A) n : n <= length l -> length (firstn n l) = n.
Proof. intros H. rewrite firstn_length. lia. Qed.
Lemma firstn_app_exact {A} (l m : list A) : firstn (length l) (l ++ m) = l.
Proof. rewrite firstn_app, Nat.sub_diag, firstn_all. cbn. apply app_nil_r. Qed.
Lemma skipn_app_exact {A} (l m : list A) : skipn (length l) (l ++ m) = m.
Proof. rewrite skipn_app, Nat.sub_diag, skipn_all. reflexivity. Qed.
Lemma skipn_app_exact' {A} (l m : list A) n : skipn (length l + n) (l ++ m) = skipn n m.
Proof. rewrite <- skipn_skipn, skipn_app_exact. reflexivity. Qed.
Lemma firstn_app_exact' {A} (l m : list A) n : firstn (length l + n) (l ++ m) = l ++ firstn n m.
Proof. now rewrite firstn_app_2. Qed.
Lemma app_inj_len {A} (a b c d : list A) : length a = length c -> a ++ b = c ++ d -> a = c /\ b = d.
Proof.
  revert c; induction a as [|x a IH]; intros [|y c] HL E; cbn in *; try discriminate; auto.
  injection E as -> E. injection HL as HL. destruct (IH c HL E) as [-> ->]. auto.
Qed.
Lemma nth_error_nth_lt {A} (l : list A) n d : n < length l -> nth_error l n = Some (nth n l d).
Proof. intros H. now apply nth_error_nth'. Qed.
