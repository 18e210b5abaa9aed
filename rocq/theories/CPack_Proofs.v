From Verif Require Import Base Word CPack_Model.
Open Scope Z_scope.
Ltac Zify.zify_post_hook ::= Z.div_mod_to_equations.

Lemma land255_bit v s n : 0 <= s -> 0 <= n -> Z.testbit (Z.land (Z.shiftr v s) 255) n = (n <? 8) && Z.testbit v (n + s).
Proof.
  intros Hs Hn. change 255 with (Z.ones 8). rewrite Z.land_spec, Z.shiftr_spec by auto.
  destruct (Z.ltb_spec n 8).
  - rewrite Z.ones_spec_low by lia. apply andb_true_r.
  - rewrite Z.ones_spec_high by lia. apply andb_false_r.
Qed.

Lemma swrap_bits w z n : 0 < w -> 0 <= n < w -> Z.testbit (swrap w z) n = Z.testbit z n.
Proof. intros Hw Hn. pose proof (swrap_cong w z Hw) as C. rewrite cong_bits in C by lia. auto. Qed.

Lemma shl_bits b s n : 0 <= s -> 0 <= n -> Z.testbit (Z.shiftl b s) n = (s <=? n) && Z.testbit b (n - s).
Proof.
  intros Hs Hn. destruct (Z.leb_spec s n).
  - rewrite Z.shiftl_spec_high by lia. reflexivity.
  - rewrite Z.shiftl_spec_low by lia. reflexivity.
Qed.

Lemma host32_be32 v : host32 (be32 v) = swrap 32 v.
Proof.
  unfold host32, be32. cbn [map combine fold_left fst snd].
  match goal with |- swrap 32 ?x = _ => apply (swrap_eq 32 x v) end; [lia|].
  apply cong_bits; [lia|]. intros n Hn.
  repeat (rewrite ?Z.lor_spec, ?swrap_bits, ?shl_bits by lia).
  rewrite Z.bits_0.
  assert (B : forall s, 0 <= s -> (s <=? n) && Z.testbit (Z.land (Z.shiftr v s) 255) (n - s) =
                                   (s <=? n) && ((n - s <? 8) && Z.testbit v n)).
  { intros s Hs. destruct (Z.leb_spec s n); auto. cbn [andb]. rewrite land255_bit by lia. now replace (n - s + s) with n by lia. }
  rewrite !B by lia.
  destruct (Z.testbit v n); rewrite ?andb_false_r, ?andb_true_r; auto.
  repeat match goal with |- context [?a <=? ?b] => destruct (Z.leb_spec a b) | |- context [?a <? ?b] => destruct (Z.ltb_spec a b) end; cbn; auto; lia.
Qed.

Lemma host64_be64 v : host64 (be64 v) = swrap 64 v.
Proof.
  unfold host64, be64. cbn [map combine fold_left fst snd].
  match goal with |- swrap 64 ?x = _ => apply (swrap_eq 64 x v) end; [lia|].
  apply cong_bits; [lia|]. intros n Hn.
  repeat (rewrite ?Z.lor_spec, ?swrap_bits, ?shl_bits by lia).
  rewrite Z.bits_0.
  assert (B : forall s, 0 <= s -> (s <=? n) && Z.testbit (Z.land (Z.shiftr v s) 255) (n - s) =
                                   (s <=? n) && ((n - s <? 8) && Z.testbit v n)).
  { intros s Hs. destruct (Z.leb_spec s n); auto. cbn [andb]. rewrite land255_bit by lia. now replace (n - s + s) with n by lia. }
  rewrite !B by lia.
  destruct (Z.testbit v n); rewrite ?andb_false_r, ?andb_true_r; auto.
  assert (C : exists s, In s [56; 48; 40; 32; 24; 16; 8; 0] /\ s <= n < s + 8).
  { exists (n / 8 * 8). split; [|lia]. cbn [In]. lia. }
  destruct C as (s & Hin & Hs). cbn [In] in Hin.
  assert (T : (s <=? n) && (n - s <? 8) = true).
  { destruct (Z.leb_spec s n), (Z.ltb_spec (n - s) 8); auto; lia. }
  intuition subst s; rewrite T; rewrite ?orb_true_r; reflexivity.
Qed.

Lemma rdbuf_app b s : rdbuf (length b) (b ++ s) = Some (b, s).
Proof.
  unfold rdbuf. rewrite app_length. destruct (Nat.ltb_spec (length b + length s) (length b)); [lia|].
  rewrite firstn_app, Nat.sub_diag, firstn_all, skipn_app, Nat.sub_diag, skipn_all. cbn. now rewrite app_nil_r.
Qed.

Lemma be32_len v : length (be32 v) = 4%nat. Proof. reflexivity. Qed.

Lemma rdint_wrint v s : - 2 ^ 31 <= v < 2 ^ 31 -> rdint (wrint v ++ s) = Some (v, s).
Proof.
  intros H. unfold rdint, wrint. rewrite <- (be32_len v), rdbuf_app. rewrite host32_be32.
  rewrite swrap_small; auto; try lia.
Qed.

Lemma rdbyte_wrbyte v s : - 2 ^ 7 <= v < 2 ^ 7 -> rdbyte (wrbyte v ++ s) = Some (v, s).
Proof. intros H. unfold rdbyte, wrbyte. cbn [app]. rewrite swrap_uwrap, swrap_small; auto; lia. Qed.

Lemma rdlenstr_wrlenstr b s : Z.of_nat (length b) < 2 ^ 31 -> rdlenstr (wrlenstr b ++ s) = Some (b, s).
Proof.
  intros H. unfold rdlenstr, wrlenstr. rewrite <- app_assoc, rdint_wrint by lia.
  destruct (Z.ltb_spec (Z.of_nat (length b)) 0); [lia|]. rewrite Nat2Z.id. apply rdbuf_app.
Qed.

Lemma cstr_nonul b : ~ In 0 b -> cstr b = b.
Proof.
  induction b as [|c b IH]; intros H; cbn; auto.
  destruct (Z.eqb_spec c 0); [exfalso; apply H; left; auto|]. f_equal. apply IH. intros Hin; apply H; right; auto.
Qed.

Lemma rdstr_wrstr v s : (forall b, v = Some b -> ~ In 0 b /\ Z.of_nat (length b) < 2 ^ 31) ->
  rdstr (wrstr v ++ s) = Some (v, s).
Proof.
  intros H. unfold rdstr, wrstr. destruct v as [b|].
  - destruct (H b eq_refl) as [H0 H1]. rewrite (cstr_nonul _ H0). rewrite <- app_assoc, rdint_wrint by lia.
    destruct (Z.eqb_spec (Z.of_nat (length b)) (-1)); [lia|].
    destruct (Z.ltb_spec (Z.of_nat (length b)) 0); [lia|]. rewrite Nat2Z.id, rdbuf_app, (cstr_nonul _ H0). reflexivity.
  - rewrite rdint_wrint by lia. reflexivity.
Qed.

Lemma rdflt_wrflt v s : 0 <= v < 2 ^ 64 -> rdflt (wrflt v ++ s) = Some (v, s).
Proof.
  intros H. unfold rdflt, wrflt. change 8%nat with (length (be64 (swrap 64 v))). rewrite rdbuf_app, host64_be64.
  rewrite uwrap_swrap, uwrap_swrap, uwrap_small by lia. reflexivity.
Qed.

Definition in_range (v : value) : Prop :=
  match v with
  | VByte z | VBool z => -128 <= z < 128
  | VInt z => - 2 ^ 31 <= z < 2 ^ 31
  | VStr None => True
  | VStr (Some b) => ~ In 0 b /\ Z.of_nat (length b) < 2 ^ 31
  | VLenStr b => Z.of_nat (length b) < 2 ^ 31
  | VFlt z => 0 <= z < 2 ^ 64
  end.

Lemma rd_wr v s : in_range v -> rd (kind_of v) (wr v ++ s) = Some (v, s).
Proof.
  destruct v as [z|z|z|b|b|z]; cbn [in_range kind_of rd wr]; intros H.
  - rewrite rdbyte_wrbyte by lia. reflexivity.
  - unfold rdbool, wrbool. rewrite swrap_small by lia. rewrite rdbyte_wrbyte by lia. reflexivity.
  - rewrite rdint_wrint by lia. reflexivity.
  - rewrite rdstr_wrstr; auto. intros b' ->. exact H.
  - rewrite rdlenstr_wrlenstr by auto. reflexivity.
  - rewrite rdflt_wrflt by auto. reflexivity.
Qed.

Lemma rds_wrs vs s : Forall in_range vs -> rds (map kind_of vs) (flat_map wr vs ++ s) = Some (vs, s).
Proof.
  induction 1 as [|v vs Hv Hvs IH]; cbn [map flat_map rds app]; auto.
  rewrite <- app_assoc, rd_wr by auto. now rewrite IH.
Qed.

Lemma wr_bytes v : (match v with VStr (Some b) | VLenStr b => Forall (fun c => 0 <= c < 256) b | _ => True end) ->
  Forall (fun c => 0 <= c < 256) (wr v).
Proof.
  assert (A : forall v ss, Forall (fun c => 0 <= c < 256) (map (fun s => Z.land (Z.shiftr v s) 255) ss)).
  { intros z ss. apply Forall_forall. intros c Hc. apply in_map_iff in Hc as (s & <- & _). rewrite land_255. lia. }
  assert (U : forall z, 0 <= uwrap 8 z < 256) by (intros; apply (uwrap_range 8); lia).
  assert (C : forall b, Forall (fun c => 0 <= c < 256) b -> Forall (fun c => 0 <= c < 256) (cstr b)).
  { intros b Hb. induction Hb as [|c b Hc Hb IH]; cbn; auto. destruct (c =? 0); auto. }
  destruct v as [z|z|z|[b|]|b|z]; cbn [wr]; intros H; unfold wrbyte, wrbool, wrint, wrstr, wrlenstr, wrflt; auto;
    try apply A; try (apply Forall_app; split; auto; apply A); repeat constructor; apply U.
Qed.
