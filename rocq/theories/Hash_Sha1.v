(* The step function of SHA-1 is the compression function of FIPS 180-4 (for Hash_Props). *)
From Verif Require Import Base ListX Hash_Spec Hash_Model Hash_Steps Hash_Sha.
From Coq Require Import NArith.
Open Scope N_scope.
Lemma sched1_S : forall n W v3 v8 v14 v16, nth (length W - 3) W 0 = v3 -> nth (length W - 8) W 0 = v8 ->
  nth (length W - 14) W 0 = v14 -> nth (length W - 16) W 0 = v16 ->
  sha1_schedule (S n) W = sha1_schedule n (W ++ [rotl 32 1 (N.lxor (N.lxor (N.lxor v3 v8) v14) v16)]).
Proof. intros n W v3 v8 v14 v16 <- <- <- <-. reflexivity. Qed.
Lemma sched1_go : forall (P : list N -> Prop) n W v3 v8 v14 v16, nth (length W - 3) W 0 = v3 -> nth (length W - 8) W 0 = v8 ->
  nth (length W - 14) W 0 = v14 -> nth (length W - 16) W 0 = v16 ->
  (forall y, y = rotl 32 1 (N.lxor (N.lxor (N.lxor v3 v8) v14) v16) -> P (sha1_schedule n (W ++ [y]))) -> P (sha1_schedule (S n) W).
Proof. intros P n W v3 v8 v14 v16 E3 E8 E14 E16 H. rewrite (sched1_S n W v3 v8 v14 v16 E3 E8 E14 E16). apply H. reflexivity. Qed.
Lemma bnd_is : forall {A B} (e y : A) (f : A -> B) r, y = e -> f y = r -> bnd e f = r.
Proof. intros A B e y f r E H. subst y. exact H. Qed.
Ltac name_words w :=
  repeat match goal with |- context [w (slice ?b ?i ?j)] => let z := fresh "x" in let E := fresh "E" in remember (w (slice b i j)) as z eqn:E end.
Ltac take_word := match goal with H : ?y = ?e |- bnd ?e ?f = ?r => apply (bnd_is e y f r H); cbv beta end.
Definition round1 (st : N * N * N * N * N) (o : (N -> N -> N -> N) * N * N) : N * N * N * N * N :=
  let '(a, b, c, d, e) := st in let '(f, k, v) := o in (sum 32 [rotl 32 5 a; f b c d; e; k; v], a, rotl 32 30 b, c, d).
Definition final1 (st res : N * N * N * N * N) : N * N * N * N * N :=
  let '(a, b, c, d, e) := st in let '(a', b', c', d', e') := res in (wadd 32 a a', wadd 32 b b', wadd 32 c c', wadd 32 d d', wadd 32 e e').
Lemma rounds1_eq : forall l st, fold_left sha1_round l st = fold_left round1 (map (fun '(t, v) => (sha1_f t, sha1_k t, v)) l) st.
Proof.
  intros l. induction l as [ | [t v] l IH]; intros st; [ reflexivity | ]. cbn [map fold_left]. rewrite IH.
  destruct st as [[[[a b] c] d] e]. reflexivity.
Qed.
Lemma round1_r : forall (f : N -> N -> N * N * N * N * N) st l a b c d e F' F k v, F' mod 2 ^ 32 = F b c d mod 2 ^ 32 ->
  f (sum 32 [rotl 32 5 a; F b c d; e; k; v]) (rotl 32 30 b)
    = final1 st (fold_left round1 l (sum 32 [rotl 32 5 a; F b c d; e; k; v], a, rotl 32 30 b, c, d)) ->
  bnd (add 32 e (add 32 (add 32 (add 32 (N.lor (shl 32 a 5) (N.shiftr a 27)) F') v) k))
    (fun e => bnd (N.lor (shl 32 b 30) (N.shiftr b 2)) (fun b => f e b)) = final1 st (fold_left round1 ((F, k, v) :: l) (a, b, c, d, e)).
Proof.
  intros f st l a b c d e F' F k v HF H. cbn [fold_left round1]. rewrite <- H. unfold bnd. rewrite (add_r _ _ _ _ HF). unfold rotl.
  change (32 - 5) with 27. change (32 - 30) with 2. f_equal. unfold shl. rewrite sum5. unfold add.
  set (u := N.lor _ (N.shiftr a 27)). nomod. f_equal. lia.
Qed.
Lemma word1_r : forall {A} (f : N -> A) r t y, y = rotl 32 1 t -> f y = r -> bnd t (fun t => bnd (N.lor (shl 32 t 1) (N.shiftr t 31)) f) = r.
Proof. intros A f r t y -> H. exact H. Qed.
Lemma maj_mod : forall a b c, N.lor (N.land a (N.lor b c)) (N.land b c) mod 2 ^ 32 = maj a b c mod 2 ^ 32.
Proof. intros. rewrite maj_eq. reflexivity. Qed.
Ltac sched1_step :=
  lazymatch goal with
  | |- ?P (sha1_schedule (S ?n) ?W) =>
      let v3 := eval cbn [length nth Nat.sub] in (nth (length W - 3) W 0) in
      let v8 := eval cbn [length nth Nat.sub] in (nth (length W - 8) W 0) in
      let v14 := eval cbn [length nth Nat.sub] in (nth (length W - 14) W 0) in
      let v16 := eval cbn [length nth Nat.sub] in (nth (length W - 16) W 0) in
      apply (sched1_go P n W v3 v8 v14 v16 eq_refl eq_refl eq_refl eq_refl);
      let y := fresh "y" in let E := fresh "E" in intros y E; cbn [app]
  end.
Ltac word1_step :=
  try (lazymatch goal with
       | |- bnd (N.lxor _ _) _ = _ => eapply word1_r; [ eassumption | cbv beta ]
       end).
Ltac round1_step :=
  word1_step;
  lazymatch goal with
  | |- _ = final1 ?st (fold_left round1 ((?F, ?k, ?v) :: ?l) (?a, ?b, ?c, ?d, ?e)) =>
      apply (round1_r _ st l a b c d e _ F k v); [ first [ apply (ch_mod 32 b c d) | apply (maj_mod b c d) | reflexivity ] | ];
      generalize (sum 32 [rotl 32 5 a; F b c d; e; k; v]), (rotl 32 30 b);
      let y := fresh "z" in let z := fresh "z" in intros y z; cbv beta
  end.
Lemma compress1_eq : forall st blk, sha1_compress st blk = final1 st (fold_left round1 (map (fun '(t, v) => (sha1_f t, sha1_k t, v))
  (combine (seq 0 80) (sha1_schedule 64 (map num_be (chunks 4 blk))))) st).
Proof. intros st blk. unfold sha1_compress. rewrite rounds1_eq. reflexivity. Qed.
Lemma sched1_64 : forall (P : list N -> Prop) x0 x1 x2 x3 x4 x5 x6 x7 x8 x9 x10 x11 x12 x13 x14 x15,
  (forall y16 y17 y18 y19 y20 y21 y22 y23 y24 y25 y26 y27 y28 y29 y30 y31 y32 y33 y34 y35 y36 y37 y38 y39 y40 y41 y42 y43 y44 y45 y46 y47 y48 y49 y50 y51 y52 y53 y54 y55 y56 y57 y58 y59 y60 y61 y62 y63 y64 y65 y66 y67 y68 y69 y70 y71 y72 y73 y74 y75 y76 y77 y78 y79, y16 = rotl 32 1 (N.lxor (N.lxor (N.lxor x13 x8) x2) x0) ->
    y17 = rotl 32 1 (N.lxor (N.lxor (N.lxor x14 x9) x3) x1) ->
    y18 = rotl 32 1 (N.lxor (N.lxor (N.lxor x15 x10) x4) x2) ->
    y19 = rotl 32 1 (N.lxor (N.lxor (N.lxor y16 x11) x5) x3) ->
    y20 = rotl 32 1 (N.lxor (N.lxor (N.lxor y17 x12) x6) x4) ->
    y21 = rotl 32 1 (N.lxor (N.lxor (N.lxor y18 x13) x7) x5) ->
    y22 = rotl 32 1 (N.lxor (N.lxor (N.lxor y19 x14) x8) x6) ->
    y23 = rotl 32 1 (N.lxor (N.lxor (N.lxor y20 x15) x9) x7) ->
    y24 = rotl 32 1 (N.lxor (N.lxor (N.lxor y21 y16) x10) x8) ->
    y25 = rotl 32 1 (N.lxor (N.lxor (N.lxor y22 y17) x11) x9) ->
    y26 = rotl 32 1 (N.lxor (N.lxor (N.lxor y23 y18) x12) x10) ->
    y27 = rotl 32 1 (N.lxor (N.lxor (N.lxor y24 y19) x13) x11) ->
    y28 = rotl 32 1 (N.lxor (N.lxor (N.lxor y25 y20) x14) x12) ->
    y29 = rotl 32 1 (N.lxor (N.lxor (N.lxor y26 y21) x15) x13) ->
    y30 = rotl 32 1 (N.lxor (N.lxor (N.lxor y27 y22) y16) x14) ->
    y31 = rotl 32 1 (N.lxor (N.lxor (N.lxor y28 y23) y17) x15) ->
    y32 = rotl 32 1 (N.lxor (N.lxor (N.lxor y29 y24) y18) y16) ->
    y33 = rotl 32 1 (N.lxor (N.lxor (N.lxor y30 y25) y19) y17) ->
    y34 = rotl 32 1 (N.lxor (N.lxor (N.lxor y31 y26) y20) y18) ->
    y35 = rotl 32 1 (N.lxor (N.lxor (N.lxor y32 y27) y21) y19) ->
    y36 = rotl 32 1 (N.lxor (N.lxor (N.lxor y33 y28) y22) y20) ->
    y37 = rotl 32 1 (N.lxor (N.lxor (N.lxor y34 y29) y23) y21) ->
    y38 = rotl 32 1 (N.lxor (N.lxor (N.lxor y35 y30) y24) y22) ->
    y39 = rotl 32 1 (N.lxor (N.lxor (N.lxor y36 y31) y25) y23) ->
    y40 = rotl 32 1 (N.lxor (N.lxor (N.lxor y37 y32) y26) y24) ->
    y41 = rotl 32 1 (N.lxor (N.lxor (N.lxor y38 y33) y27) y25) ->
    y42 = rotl 32 1 (N.lxor (N.lxor (N.lxor y39 y34) y28) y26) ->
    y43 = rotl 32 1 (N.lxor (N.lxor (N.lxor y40 y35) y29) y27) ->
    y44 = rotl 32 1 (N.lxor (N.lxor (N.lxor y41 y36) y30) y28) ->
    y45 = rotl 32 1 (N.lxor (N.lxor (N.lxor y42 y37) y31) y29) ->
    y46 = rotl 32 1 (N.lxor (N.lxor (N.lxor y43 y38) y32) y30) ->
    y47 = rotl 32 1 (N.lxor (N.lxor (N.lxor y44 y39) y33) y31) ->
    y48 = rotl 32 1 (N.lxor (N.lxor (N.lxor y45 y40) y34) y32) ->
    y49 = rotl 32 1 (N.lxor (N.lxor (N.lxor y46 y41) y35) y33) ->
    y50 = rotl 32 1 (N.lxor (N.lxor (N.lxor y47 y42) y36) y34) ->
    y51 = rotl 32 1 (N.lxor (N.lxor (N.lxor y48 y43) y37) y35) ->
    y52 = rotl 32 1 (N.lxor (N.lxor (N.lxor y49 y44) y38) y36) ->
    y53 = rotl 32 1 (N.lxor (N.lxor (N.lxor y50 y45) y39) y37) ->
    y54 = rotl 32 1 (N.lxor (N.lxor (N.lxor y51 y46) y40) y38) ->
    y55 = rotl 32 1 (N.lxor (N.lxor (N.lxor y52 y47) y41) y39) ->
    y56 = rotl 32 1 (N.lxor (N.lxor (N.lxor y53 y48) y42) y40) ->
    y57 = rotl 32 1 (N.lxor (N.lxor (N.lxor y54 y49) y43) y41) ->
    y58 = rotl 32 1 (N.lxor (N.lxor (N.lxor y55 y50) y44) y42) ->
    y59 = rotl 32 1 (N.lxor (N.lxor (N.lxor y56 y51) y45) y43) ->
    y60 = rotl 32 1 (N.lxor (N.lxor (N.lxor y57 y52) y46) y44) ->
    y61 = rotl 32 1 (N.lxor (N.lxor (N.lxor y58 y53) y47) y45) ->
    y62 = rotl 32 1 (N.lxor (N.lxor (N.lxor y59 y54) y48) y46) ->
    y63 = rotl 32 1 (N.lxor (N.lxor (N.lxor y60 y55) y49) y47) ->
    y64 = rotl 32 1 (N.lxor (N.lxor (N.lxor y61 y56) y50) y48) ->
    y65 = rotl 32 1 (N.lxor (N.lxor (N.lxor y62 y57) y51) y49) ->
    y66 = rotl 32 1 (N.lxor (N.lxor (N.lxor y63 y58) y52) y50) ->
    y67 = rotl 32 1 (N.lxor (N.lxor (N.lxor y64 y59) y53) y51) ->
    y68 = rotl 32 1 (N.lxor (N.lxor (N.lxor y65 y60) y54) y52) ->
    y69 = rotl 32 1 (N.lxor (N.lxor (N.lxor y66 y61) y55) y53) ->
    y70 = rotl 32 1 (N.lxor (N.lxor (N.lxor y67 y62) y56) y54) ->
    y71 = rotl 32 1 (N.lxor (N.lxor (N.lxor y68 y63) y57) y55) ->
    y72 = rotl 32 1 (N.lxor (N.lxor (N.lxor y69 y64) y58) y56) ->
    y73 = rotl 32 1 (N.lxor (N.lxor (N.lxor y70 y65) y59) y57) ->
    y74 = rotl 32 1 (N.lxor (N.lxor (N.lxor y71 y66) y60) y58) ->
    y75 = rotl 32 1 (N.lxor (N.lxor (N.lxor y72 y67) y61) y59) ->
    y76 = rotl 32 1 (N.lxor (N.lxor (N.lxor y73 y68) y62) y60) ->
    y77 = rotl 32 1 (N.lxor (N.lxor (N.lxor y74 y69) y63) y61) ->
    y78 = rotl 32 1 (N.lxor (N.lxor (N.lxor y75 y70) y64) y62) ->
    y79 = rotl 32 1 (N.lxor (N.lxor (N.lxor y76 y71) y65) y63) ->
    P [x0; x1; x2; x3; x4; x5; x6; x7; x8; x9; x10; x11; x12; x13; x14; x15; y16; y17; y18; y19; y20; y21; y22; y23; y24; y25; y26; y27; y28; y29; y30; y31; y32; y33; y34; y35; y36; y37; y38; y39; y40; y41; y42; y43; y44; y45; y46; y47; y48; y49; y50; y51; y52; y53; y54; y55; y56; y57; y58; y59; y60; y61; y62; y63; y64; y65; y66; y67; y68; y69; y70; y71; y72; y73; y74; y75; y76; y77; y78; y79]) ->
  P (sha1_schedule 64 [x0; x1; x2; x3; x4; x5; x6; x7; x8; x9; x10; x11; x12; x13; x14; x15]).
Proof.
  intros P x0 x1 x2 x3 x4 x5 x6 x7 x8 x9 x10 x11 x12 x13 x14 x15 H. do 64 sched1_step. cbn [sha1_schedule]. apply H; assumption.
Qed.
Lemma step_sha1_ok : forall st blk, Forall is_byte blk -> length blk = 64%nat -> step_sha1 st blk = sha1_compress st blk.
Proof.
  intros st blk F L. rewrite compress1_eq.
  rewrite (words16 4 num_be unpack_sha1 blk unpack_be4 F) by lia.
  cbn [seq map Nat.mul Nat.add]. apply sched1_64. intros. cbn [combine map].
  destruct st as [[[[a b] c] d] e]. cbv [sha1_f sha1_k Nat.ltb Nat.leb].
  unfold step_sha1. do 16 (apply bnd_eq).
  unfold K0, K1, K2, K3.
  do 80 round1_step. Time reflexivity.
Qed.
