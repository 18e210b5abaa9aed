(* C100 (shell quoting), C101 (percent-encoding), C102 (HTML escapes). *)
From Coq Require Import List Arith NArith Bool Lia.
From Verif Require Import Esc_Spec Esc_Model.
Import ListNotations.
Open Scope N_scope.

Lemma sh_inside : forall s t, shword true (concat (map (fun b => if b =? 39 then [39; 92; 39; 39] else [b]) s) ++ t) = option_map (app s) (shword true t).
Proof.
  intros s t. induction s as [ | b s IH]; [ cbn [map concat app]; destruct (shword true t); reflexivity | ]. cbn [map concat]. destruct (N.eqb_spec b 39) as [-> | H].
  - cbn [app shword N.eqb Pos.eqb]. rewrite IH. destruct (shword true t); reflexivity.
  - cbn [app shword]. rewrite (proj2 (N.eqb_neq _ _) H), IH. destruct (shword true t); reflexivity.
Qed.
(* C100: a shell reads the quoted string as one word, and that word is the string *)
Theorem C100_sh : forall s, shword false (shfmt s) = Some s.
Proof.
  intros s. unfold shfmt. change ([39] ++ ?x) with (39 :: x). cbn [app shword N.eqb Pos.eqb]. rewrite sh_inside. cbn [shword N.eqb Pos.eqb option_map]. rewrite app_nil_r. reflexivity.
Qed.
(* C100: also between other pieces of the same word, so quoted strings can be put together *)
Theorem C100_joins : forall s t, shword false (shfmt s ++ t) = option_map (app s) (shword false t).
Proof.
  intros s t. unfold shfmt. cbn [app shword N.eqb Pos.eqb]. rewrite <- app_assoc, sh_inside. reflexivity.
Qed.

Lemma hexval_digit : forall d, d < 16 -> hexval (digit d) = Some d.
Proof.
  intros d H. assert (I : In d (map N.of_nat (seq 0 16))).
  { apply in_map_iff. exists (N.to_nat d). split; [ apply N2Nat.id | apply in_seq; lia ]. }
  cbn in I. repeat (destruct I as [<- | I]; [ reflexivity | ]). destruct I.
Qed.
Lemma url_coded : forall b t, 16 <= b < 256 -> urlread ((37 :: hex b) ++ t) = option_map (cons b) (urlread t).
Proof.
  intros b t H. unfold hex. rewrite (proj2 (N.ltb_ge _ _)) by lia. cbn [app urlread N.eqb Pos.eqb].
  assert (b / 16 < 16) by (apply N.div_lt_upper_bound; lia). assert (b mod 16 < 16) by (apply N.mod_lt; discriminate).
  rewrite !hexval_digit by assumption. do 2 f_equal. symmetry. apply N.div_mod. discriminate.
Qed.
Lemma special_range : forall b, existsb (N.eqb b) [58; 47; 63; 35; 91; 93; 64; 33; 36; 38; 39; 40; 41; 42; 43; 44; 59; 61; 37] = true -> 16 <= b < 256.
Proof. intros b E. apply existsb_exists in E. destruct E as (c & I & E). apply N.eqb_eq in E. subst c. cbn in I. repeat (destruct I as [<- | I]; [ lia | ]). destruct I. Qed.
(* C101: decoding gives the string back *)
Theorem C101_decodes : forall s, Forall (fun b => b < 256) s -> urlread (urlfmt s) = Some s.
Proof.
  intros s F. induction F as [ | b s H F IH]; [ reflexivity | ]. unfold urlfmt. cbn [map concat]. fold (urlfmt s).
  destruct (existsb _ _) eqn:E.
  - rewrite url_coded by (apply special_range; exact E). rewrite IH. reflexivity.
  - destruct (N.leb_spec 0x80 b) as [L | L].
    + rewrite url_coded by lia. rewrite IH. reflexivity.
    + cbn [app urlread]. destruct (N.eqb_spec b 37) as [-> | D]; [ discriminate E | ]. rewrite IH. reflexivity.
Qed.
(* C101: what comes out: no reserved characters, no bytes beyond ASCII.  Missing: that all that comes out may stand in a
   URL (C101_space_refuted). *)
Lemma digit_ok : forall d, d < 16 -> unreserved (digit d) = true.
Proof.
  intros d H. assert (I : In d (map N.of_nat (seq 0 16))).
  { apply in_map_iff. exists (N.to_nat d). split; [ apply N2Nat.id | apply in_seq; lia ]. }
  cbn in I. repeat (destruct I as [<- | I]; [ reflexivity | ]). destruct I.
Qed.
Theorem C101_allowed_partial : forall s c, Forall (fun b => b < 256) s -> In c (urlfmt s) ->
  c < 0x80 /\ ~ In c reserved /\ (unreserved c = true \/ c = 37 \/ (In c s /\ ~ In c reserved)).
Proof.
  intros s c F I. unfold urlfmt in I. apply in_concat in I. destruct I as (l & Il & Ic). apply in_map_iff in Il. destruct Il as (b & <- & Ib).
  rewrite Forall_forall in F. specialize (F b Ib).
  assert (U : forall x, unreserved x = true -> x < 0x80 /\ ~ In x reserved).
  { intros x Ux. split.
    - unfold unreserved in Ux. rewrite !orb_true_iff, !andb_true_iff, !N.leb_le in Ux. destruct Ux as [[[[_ A] | [_ A]] | [_ A]] | A]; try lia.
      apply existsb_exists in A. destruct A as (y & J & E). apply N.eqb_eq in E. subst y. cbn in J. repeat (destruct J as [<- | J]; [ reflexivity | ]). destruct J.
    - intros J. cbn in J. repeat (destruct J as [<- | J]; [ discriminate Ux | ]). destruct J. }
  assert (P : 37 < 0x80 /\ ~ In 37 reserved).
  { split; [ reflexivity | ]. intros J. cbn in J. repeat (destruct J as [E | J]; [ discriminate E | ]). destruct J. }
  assert (C : 16 <= b -> In c (37 :: hex b) -> c < 0x80 /\ ~ In c reserved /\ (unreserved c = true \/ c = 37 \/ (In c s /\ ~ In c reserved))).
  { intros L [<- | J]; [ split; [ apply P | split; [ apply P | right; left; reflexivity ] ] | ]. unfold hex in J. rewrite (proj2 (N.ltb_ge _ _)) in J by lia.
    assert (b / 16 < 16) by (apply N.div_lt_upper_bound; lia). assert (b mod 16 < 16) by (apply N.mod_lt; discriminate).
    assert (Uc : unreserved c = true) by (destruct J as [<- | [<- | []]]; apply digit_ok; assumption).
    destruct (U c Uc) as [U1 U2]. split; [ exact U1 | ]. split; [ exact U2 | left; exact Uc ]. }
  destruct (existsb _ _) eqn:E.
  - apply special_range in E. apply C; [ lia | exact Ic ].
  - destruct (N.leb_spec 0x80 b) as [L | L]; [ apply C; [ lia | exact Ic ] | ].
    destruct Ic as [<- | []]. assert (R : ~ In b reserved).
    { intros J. assert (existsb (N.eqb b) [58; 47; 63; 35; 91; 93; 64; 33; 36; 38; 39; 40; 41; 42; 43; 44; 59; 61; 37] = true); [ | congruence ].
      apply existsb_exists. exists b. split; [ | apply N.eqb_refl ]. cbn in J |- *. repeat (destruct J as [J | J]; [ subst; tauto | ]). destruct J. }
    split; [ lia | ]. split; [ exact R | ]. right. right. split; assumption.
Qed.
(* C101, refuted: spaces, control characters, quotes, angle brackets and others that may not stand in a URL are left as they are *)
Theorem C101_space_refuted : forall c, c < 0x80 -> unreserved c = false -> ~ In c (37 :: reserved) -> urlfmt [c] = [c].
Proof.
  intros c L U R. unfold urlfmt. cbn [map concat]. rewrite app_nil_r. destruct (existsb _ _) eqn:E.
  - exfalso. apply R. apply existsb_exists in E. destruct E as (d & I & E). apply N.eqb_eq in E. subst d. cbn in I |- *. tauto.
  - rewrite (proj2 (N.leb_gt _ _)) by exact L. reflexivity.
Qed.
Example C101_space_met : urlfmt [32] = [32] /\ urlfmt [10] = [10] /\ urlfmt [34] = [34] /\ unreserved 32 = false.
Proof. repeat split. Qed.

Lemma htmlread_other : forall c s, c <> 38 -> c <> 60 -> c <> 62 -> htmlread (c :: s) = option_map (cons c) (htmlread s).
Proof.
  intros c s H1 H2 H3. apply N.eqb_neq in H1, H2, H3. assert (E : (if (c =? 38) || (c =? 60) || (c =? 62) then None else option_map (cons c) (htmlread s)) = option_map (cons c) (htmlread s)).
  { rewrite H1, H2, H3. reflexivity. }
  rewrite <- E. clear E. cbn [htmlread]. destruct c as [ | c]; [ reflexivity | ]. do 6 (try destruct c as [c | c | ]); try reflexivity. discriminate H1.
Qed.
(* C102: as text, what comes out stands for the string and has no tags.  Missing: that it can stand in an attribute
   (C102_quote_refuted). *)
Theorem C102_text_partial : forall s, htmlread (htmlfmt s) = Some s /\ ~ In 60 (htmlfmt s) /\ ~ In 62 (htmlfmt s).
Proof.
  intros s. induction s as [ | c s (IH1 & IH2 & IH3)]; [ repeat split; intros [] | ]. unfold htmlfmt. cbn [map concat]. fold (htmlfmt s).
  destruct (N.eqb_spec c 38) as [-> | H1]; [ | destruct (N.eqb_spec c 60) as [-> | H2]; [ | destruct (N.eqb_spec c 62) as [-> | H3]; [ | destruct (N.eqb_spec c 47) as [-> | H4] ] ] ].
  1-4: cbn [app htmlread]; rewrite IH1; split; [ reflexivity | ]; split; intros I; cbn [In] in I; repeat (destruct I as [I | I]; [ discriminate I | ]); auto.
  cbn [app]. rewrite htmlread_other, IH1 by assumption. split; [ reflexivity | ]. split; intros [I | I]; auto.
Qed.
(* C102, refuted: quotes are kept, so a string can end the attribute it is put in *)
Theorem C102_quote_refuted : forall s t, htmlfmt (s ++ 34 :: t) = htmlfmt s ++ 34 :: htmlfmt t /\ htmlfmt (s ++ 39 :: t) = htmlfmt s ++ 39 :: htmlfmt t.
Proof. intros s t. unfold htmlfmt. rewrite !map_app, !concat_app. split; reflexivity. Qed.

(* it's; a/b c; <&> *)
Example C100_met : shfmt [105; 116; 39; 115] = [39; 105; 116; 39; 92; 39; 39; 115; 39] /\ shword false [97; 32; 98] = None /\ shword false [39; 97] = None.
Proof. repeat split. Qed.
Example C101_met : urlfmt [97; 47; 98; 0xc3] = [97; 37; 50; 102; 98; 37; 99; 51] /\ urlread [37; 50; 70] = Some [47].
Proof. split; reflexivity. Qed.
Example C102_met : htmlfmt [60; 38] = [38; 108; 116; 59; 38; 97; 109; 112; 59] /\ htmlread [60] = None.
Proof. split; reflexivity. Qed.
Print Assumptions C100_sh.
Print Assumptions C100_joins.
Print Assumptions C101_decodes.
Print Assumptions C101_allowed_partial.
Print Assumptions C101_space_refuted.
Print Assumptions C102_text_partial.
Print Assumptions C102_quote_refuted.
