(** Doubles written with 17 significant digits are read back exactly. *)
From Coq Require Import Reals Lra ZArith List Ascii String Bool Arith Lia.
From Flocq Require Import Core.
From Coq Require Import List.
From Verif Require Import Model.Strings Model.Printf Spec.StringSpec Spec.PrintfSpec Proofs.StringProofs.
Import ListNotations.
Local Open Scope R_scope.

(** ** Digits *)
Lemma nat_of_digit z : (0 <= z < 10)%Z -> nat_of_ascii (digit z) = (48 + Z.to_nat z)%nat.
Proof. intros H. unfold digit. apply nat_ascii_embedding. lia. Qed.
Lemma is_digit_digit z : (0 <= z < 10)%Z -> is_digit (digit z) = true.
Proof.
  intros H. unfold is_digit. rewrite nat_of_digit by auto. apply andb_true_iff. split; apply Nat.leb_le; lia.
Qed.
Lemma digit_value_digit z : (0 <= z < 10)%Z -> digit_value (digit z) = z.
Proof. intros H. unfold digit_value. rewrite nat_of_digit by auto. lia. Qed.
Lemma decimals_length k : forall z, List.length (decimals k z) = k.
Proof. induction k; intros z; cbn [decimals]; auto. rewrite app_length, IHk. cbn. lia. Qed.
Lemma decimals_digits k : forall z c, In c (decimals k z) -> exists d, (0 <= d < 10)%Z /\ c = digit d.
Proof.
  induction k; intros z c; cbn [decimals]; [intros []|]. rewrite in_app_iff. intros [H|[<-|[]]]; eauto.
  exists (z mod 10)%Z. split; auto. apply Z.mod_pos_bound. lia.
Qed.
Lemma scan_app s : forall acc t, (forall c, In c s -> is_digit c = true) -> match t with c :: _ => is_digit c = false | [] => True end ->
  scan_digits (s ++ t) acc = (fold_left (fun a c => 10 * a + digit_value c)%Z s acc, List.length s, t).
Proof.
  induction s as [|c s IH]; intros acc t Hs Ht; cbn [app scan_digits fold_left List.length].
  - destruct t as [|c t]; cbn; auto. now rewrite Ht.
  - rewrite (Hs c) by now left. rewrite IH; auto. intros; apply Hs; now right.
Qed.
Lemma fold_decimals k : forall z acc, (0 <= z)%Z -> fold_left (fun a c => 10 * a + digit_value c)%Z (decimals k z) acc = (acc * 10 ^ Z.of_nat k + z mod 10 ^ Z.of_nat k)%Z.
Proof.
  induction k; intros z acc Hz; cbn [decimals fold_left].
  - cbn. rewrite Z.mod_1_r. lia.
  - rewrite fold_left_app. cbn [fold_left]. rewrite IHk by (apply Z.div_pos; lia). rewrite digit_value_digit by (apply Z.mod_pos_bound; lia).
    rewrite Nat2Z.inj_succ, Z.pow_succ_r by lia.
    assert (P : (0 < 10 ^ Z.of_nat k)%Z) by (apply Z.pow_pos_nonneg; lia).
    rewrite (Z.rem_mul_r z 10 (10 ^ Z.of_nat k)) by lia. lia.
Qed.
Lemma scan_decimals k z acc t : (0 <= z)%Z -> match t with c :: _ => is_digit c = false | [] => True end ->
  scan_digits (decimals k z ++ t) acc = ((acc * 10 ^ Z.of_nat k + z mod 10 ^ Z.of_nat k)%Z, k, t).
Proof.
  intros Hz Ht. rewrite scan_app; auto.
  - now rewrite fold_decimals, decimals_length.
  - intros c Hc. destruct (decimals_digits k z c Hc) as (d & Hd & ->). now apply is_digit_digit.
Qed.

Lemma scan_exponent_text e : (Z.abs e < 1000)%Z -> scan_exponent (lit "E" ++ exponent_text e) = e.
Proof.
  intros He. unfold exponent_text. set (k := if Z.ltb (Z.abs e) 100 then 2%nat else 3%nat).
  assert (Hk : (Z.abs e < 10 ^ Z.of_nat k)%Z /\ k <> 0%nat).
  { unfold k. destruct (Z.ltb_spec (Z.abs e) 100); cbn; lia. }
  assert (Hs : scan_digits (decimals k (Z.abs e)) 0 = (Z.abs e, k, [])).
  { rewrite <- (app_nil_r (decimals k (Z.abs e))), scan_decimals by (auto; lia). rewrite Z.mod_small by lia. reflexivity. }
  clearbody k. unfold scan_exponent. cbn [lit list_ascii_of_string app].
  change (ch_eqb "E"%char "E"%char) with true. cbn [orb].
  destruct (Z.ltb_spec e 0).
  - cbn [lit list_ascii_of_string app scan_sign]. change (ch_eqb "-"%char "-"%char) with true. cbn iota. rewrite Hs.
    destruct (Nat.eqb_spec k 0); [lia|]. lia.
  - cbn [lit list_ascii_of_string app scan_sign]. change (ch_eqb "+"%char "-"%char) with false. change (ch_eqb "+"%char "+"%char) with true. cbn iota. rewrite Hs.
    destruct (Nat.eqb_spec k 0); [lia|]. lia.
Qed.

Lemma digit_not_sign d s : (0 <= d < 10)%Z -> scan_sign (digit d :: s) = (false, digit d :: s) /\ skip_space (digit d :: s) = digit d :: s.
Proof.
  intros Hd. assert (N := nat_of_digit d Hd). split.
  - cbn [scan_sign]. destruct (ch_eqb (digit d) "-") eqn:E; [apply ch_eqb_true in E; rewrite E in N; cbn in N; lia|].
    destruct (ch_eqb (digit d) "+") eqn:E'; [apply ch_eqb_true in E'; rewrite E' in N; cbn in N; lia|]. reflexivity.
  - cbn [skip_space]. unfold is_space. rewrite N. destruct (ch_eqb (digit d) ch_space) eqn:E; [apply ch_eqb_true in E; rewrite E in N; cbn in N; lia|].
    destruct (Nat.leb_spec (48 + Z.to_nat d) 13); [lia|]. now rewrite andb_false_r.
Qed.
Lemma parse_E k m e (neg : bool) : (0 < k)%nat -> (0 <= m < 10 ^ Z.of_nat (S k))%Z -> (Z.abs e < 1000)%Z ->
  decimal_value ((if neg then lit "-" else []) ++ decimals 1 (m / 10 ^ Z.of_nat k) ++ lit "." ++ decimals k m ++ lit "E" ++ exponent_text e) =
  (if neg then -1 else 1) * IZR m * bpow radix10 (e - Z.of_nat k).
Proof.
  intros Hk Hm He. assert (Pk : (0 < 10 ^ Z.of_nat k)%Z) by (apply Z.pow_pos_nonneg; lia).
  rewrite Nat2Z.inj_succ, Z.pow_succ_r in Hm by lia.
  assert (Hq : (0 <= m / 10 ^ Z.of_nat k < 10)%Z).
  { split; [apply Z.div_pos; lia|]. apply Z.div_lt_upper_bound; lia. }
  set (q := (m / 10 ^ Z.of_nat k)%Z) in *.
  set (body := decimals 1 q ++ lit "." ++ decimals k m ++ lit "E" ++ exponent_text e).
  assert (Hb : exists s, body = digit q :: s).
  { unfold body. cbn [decimals app]. rewrite Z.mod_small by lia. eauto. }
  assert (Hss : scan_sign (skip_space ((if neg then lit "-" else []) ++ body)) = (neg, body)).
  { destruct neg; cbn [lit list_ascii_of_string app]; [reflexivity|]. destruct Hb as (s & ->). destruct (digit_not_sign q s Hq) as [A ->]. exact A. }
  unfold decimal_value. rewrite Hss. unfold body. rewrite scan_decimals by (try lia; reflexivity).
  cbn [lit list_ascii_of_string app]. change (ch_eqb "."%char "."%char) with true. cbn iota.
  change ("E"%char :: exponent_text e) with (lit "E" ++ exponent_text e).
  rewrite scan_decimals by (try lia; reflexivity). rewrite scan_exponent_text by auto.
  destruct (Nat.eqb_spec (1 + k) 0); [lia|]. f_equal. f_equal. f_equal.
  change (Z.of_nat 1) with 1%Z. rewrite Z.pow_1_r, (Z.mod_small q) by lia. unfold q. rewrite Z.mul_0_l, Z.add_0_l. rewrite (Z.div_mod m (10 ^ Z.of_nat k)) at 3 by lia. lia.
Qed.

(** ** Rounding to digits *)
Lemma bpow_IZR k : (0 <= k)%Z -> bpow radix10 k = IZR (10 ^ k).
Proof. intros H. rewrite <- IZR_Zpower by auto. reflexivity. Qed.
Lemma sci_spec k v : v <> 0 -> let (m, e) := sci k v in
  (0 <= m < 10 ^ Z.of_nat (S k))%Z /\ (e = mag radix10 v - 1 \/ e = mag radix10 v)%Z /\
  Rabs (IZR m * bpow radix10 (e - Z.of_nat k) - Rabs v) <= / 2 * bpow radix10 (mag radix10 v - 1 - Z.of_nat k).
Proof.
  intros Hv. unfold sci. destruct (Req_EM_T v 0) as [|_]; [contradiction|].
  set (e0 := (mag radix10 v - 1)%Z). set (x := Rabs v * bpow radix10 (Z.of_nat k - e0)).
  assert (Hm : bpow radix10 e0 <= Rabs v < bpow radix10 (e0 + 1)).
  { unfold e0. replace (mag radix10 v - 1 + 1)%Z with (mag radix10 v : Z) by lia. destruct (mag radix10 v) as [e He]; cbn. now apply He. }
  assert (Hx : bpow radix10 (Z.of_nat k) <= x < bpow radix10 (Z.of_nat k + 1)).
  { unfold x. assert (P := bpow_gt_0 radix10 (Z.of_nat k - e0)). split.
    - replace (Z.of_nat k) with (e0 + (Z.of_nat k - e0))%Z at 1 by lia. rewrite bpow_plus. apply Rmult_le_compat_r; lra.
    - replace (Z.of_nat k + 1)%Z with (e0 + 1 + (Z.of_nat k - e0))%Z by lia. rewrite bpow_plus. apply Rmult_lt_compat_r; lra. }
  assert (Hn : Rabs (x - IZR (ZnearestE x)) <= / 2) by apply Znearest_half.
  assert (Hr : (10 ^ Z.of_nat k <= ZnearestE x <= 10 ^ (Z.of_nat k + 1))%Z).
  { assert (V : Valid_rnd ZnearestE) by apply valid_rnd_N. rewrite !bpow_IZR in Hx by lia. split.
    - rewrite <- (@Zrnd_IZR _ V (10 ^ Z.of_nat k)). apply (@Zrnd_le _ V). lra.
    - rewrite <- (@Zrnd_IZR _ V (10 ^ (Z.of_nat k + 1))). apply (@Zrnd_le _ V). lra. }
  assert (P0 : (0 < 10 ^ Z.of_nat k)%Z) by (apply Z.pow_pos_nonneg; lia).
  assert (Err : Rabs (IZR (ZnearestE x) * bpow radix10 (e0 - Z.of_nat k) - Rabs v) <= / 2 * bpow radix10 (e0 - Z.of_nat k)).
  { replace (Rabs v) with (x * bpow radix10 (e0 - Z.of_nat k)).
    2:{ unfold x. rewrite Rmult_assoc, <- bpow_plus. replace (Z.of_nat k - e0 + (e0 - Z.of_nat k))%Z with 0%Z by lia. cbn. lra. }
    rewrite <- Rmult_minus_distr_r, Rabs_mult. rewrite (Rabs_pos_eq (bpow _ _)) by apply bpow_ge_0. apply Rmult_le_compat_r; [apply bpow_ge_0|].
    rewrite Rabs_minus_sym. exact Hn. }
  fold e0. destruct (Z.eqb_spec (ZnearestE x) (10 ^ (Z.of_nat k + 1))) as [E|E].
  - split; [rewrite Nat2Z.inj_succ, Z.pow_succ_r by lia; lia|]. split; [right; unfold e0; lia|].
    rewrite E in Err. replace (IZR (10 ^ Z.of_nat k) * bpow radix10 (e0 + 1 - Z.of_nat k)) with (IZR (10 ^ (Z.of_nat k + 1)) * bpow radix10 (e0 - Z.of_nat k)); auto.
    rewrite <- !bpow_IZR, <- !bpow_plus by lia. f_equal. lia.
  - split; [rewrite Nat2Z.inj_succ; replace (Z.succ (Z.of_nat k)) with (Z.of_nat k + 1)%Z by lia; lia|]. split; [left; auto|exact Err].
Qed.

Lemma double_format v : double v -> generic_format radix2 (FLT_exp (-1074) 53) v.
Proof.
  intros (m & e & Hm & He & ->). apply generic_format_FLT. exists (Float radix2 m e); cbn; try lia.
  unfold F2R; cbn. f_equal. now rewrite bpow_powerRZ.
Qed.
Lemma double_bounds v : double v -> v <> 0 -> bpow radix10 (-999) <= Rabs v < bpow radix10 999.
Proof.
  intros (m & e & Hm & He & ->) Hv.
  assert (Hm0 : m <> 0%Z) by (intros ->; apply Hv; ring).
  rewrite Rabs_mult, <- abs_IZR. rewrite (Rabs_pos_eq (powerRZ 2 e)) by (apply powerRZ_le; lra).
  assert (Ep : powerRZ 2 e = bpow radix2 e) by now rewrite bpow_powerRZ. rewrite Ep.
  assert (B1 : bpow radix2 (-1074) <= bpow radix2 e) by (apply bpow_le; lia).
  assert (B2 : bpow radix2 e <= bpow radix2 971) by (apply bpow_le; lia).
  assert (B3 : bpow radix10 (-999) <= bpow radix2 (-1074)).
  { change (-999)%Z with (Z.opp 999). change (-1074)%Z with (Z.opp 1074). rewrite !bpow_opp. apply Rinv_le_contravar; [apply bpow_gt_0|].
    rewrite <- !IZR_Zpower by lia. apply IZR_le. vm_compute. discriminate. }
  assert (B4 : bpow radix2 53 * bpow radix2 971 < bpow radix10 999).
  { rewrite <- bpow_plus, <- !IZR_Zpower by lia. apply IZR_lt. reflexivity. }
  assert (B5 : 1 <= IZR (Z.abs m) < bpow radix2 53).
  { rewrite <- IZR_Zpower by lia. change (Zpower radix2 53) with (2 ^ 53)%Z. split; [apply IZR_le|apply IZR_lt]; lia. }
  assert (B6 := bpow_gt_0 radix2 e). assert (B7 := bpow_gt_0 radix2 (-1074)).
  split; [nra|].
  apply Rle_lt_trans with (bpow radix2 53 * bpow radix2 971); auto. apply Rmult_le_compat; lra.
Qed.
Lemma mag10_bounds v : double v -> v <> 0 -> (-999 < mag radix10 v <= 999)%Z.
Proof.
  intros D Hv. destruct (double_bounds v D Hv) as [A B]. split.
  - apply Z.lt_le_trans with (-999 + 1)%Z; [lia|]. apply mag_ge_bpow. now replace (-999 + 1 - 1)%Z with (-999)%Z by lia.
  - apply mag_le_bpow; auto.
Qed.

(** Rounding back: an error below half a unit in the 17th digit. *)
Lemma round_back v x : 0 < v -> generic_format radix2 (FLT_exp (-1074) 53) v ->
  Rabs (x - v) <= / 2 * bpow radix10 (mag radix10 v - 1 - 16) -> round64 x = v.
Proof.
  intros Hv F Hx. set (fexp := FLT_exp (-1074) 53) in *.
  assert (Ve : Valid_exp fexp) by (apply FLT_exp_valid; reflexivity).
  assert (D10 : bpow radix10 (mag radix10 v - 1) <= v).
  { destruct (mag radix10 v) as [e He]; cbn. rewrite <- (Rabs_pos_eq v) at 1 by lra. apply He. lra. }
  set (d := / 2 * bpow radix10 (mag radix10 v - 1 - 16)) in *.
  assert (Hd : d <= v * / (2 * 10 ^ 16)).
  { unfold d. unfold Zminus at 1. rewrite bpow_plus. replace (bpow radix10 (- (16))) with (/ 10 ^ 16).
    2:{ cbn. f_equal. lra. }
    rewrite Rinv_mult_distr by lra. assert (P : 0 < / 10 ^ 16) by (apply Rinv_0_lt_compat; lra). nra. }
  assert (M2 : bpow radix2 (mag radix2 v - 1) <= v < bpow radix2 (mag radix2 v)).
  { destruct (mag radix2 v) as [e He]; cbn. rewrite <- (Rabs_pos_eq v) by lra. apply He. lra. }
  set (e := (mag radix2 v : Z)) in *.
  assert (U : ulp radix2 fexp v = bpow radix2 (fexp e)) by (rewrite ulp_neq_0 by lra; reflexivity).
  assert (Hf : (e - 53 <= fexp e)%Z) by (unfold fexp, FLT_exp; lia).
  assert (Ge : bpow radix2 (e - 53) <= bpow radix2 (fexp e)) by now apply bpow_le.
  assert (E1 : bpow radix2 e = bpow radix2 (e - 53) * 9007199254740992).
  { replace e with (e - 53 + 53)%Z at 1 by lia. rewrite bpow_plus. f_equal. }
  assert (E2 : bpow radix2 (e - 1) = bpow radix2 (e - 53) * 4503599627370496).
  { replace (e - 1)%Z with (e - 53 + 52)%Z at 1 by lia. rewrite bpow_plus. f_equal. }
  assert (P53 := bpow_gt_0 radix2 (e - 53)).
  assert (Hpow : (10 ^ 16 = 10000000000000000)%R) by lra. rewrite Hpow in Hd.
  assert (D1 : d < / 2 * bpow radix2 (e - 53)).
  { apply Rle_lt_trans with (v * / (2 * 10000000000000000)); auto.
    apply Rlt_le_trans with (bpow radix2 e * / (2 * 10000000000000000)); [apply Rmult_lt_compat_r; lra|]. rewrite E1. lra. }
  apply Rabs_le_inv in Hx.
  unfold round64. fold fexp. apply Rle_antisym.
  - apply round_N_le_midp; auto. rewrite succ_eq_pos by lra. rewrite U. lra.
  - apply round_N_ge_midp; auto. rewrite pred_eq_pos by lra. unfold pred_pos. fold e. destruct (Req_bool_spec v (bpow radix2 (e - 1))) as [E|E].
    + assert (D2 : d < / 2 * bpow radix2 (e - 54)).
      { apply Rle_lt_trans with (v * / (2 * 10000000000000000)); auto. rewrite E, E2. replace (e - 53)%Z with (e - 54 + 1)%Z by lia. rewrite bpow_plus.
        assert (P54 := bpow_gt_0 radix2 (e - 54)). cbn [bpow radix_val radix2 Z.pow_pos Pos.iter Z.mul Pos.mul]. change (Z.pow_pos 2 1) with 2%Z. lra. }
      assert (G2 : bpow radix2 (e - 54) <= bpow radix2 (fexp (e - 1)%Z)) by (apply bpow_le; unfold fexp, FLT_exp; lia).
      lra.
    + rewrite U. lra.
Qed.
Lemma round64_opp x : round64 (- x) = - round64 x.
Proof. unfold round64. apply round_NE_opp. Qed.

(** The decimal text is within half a unit of the last digit ... *)
Lemma text_value k v : (0 < k)%nat -> double v -> v <> 0 -> let s := if Rlt_dec v 0 then -1 else 1 in
  exists y, decimal_value (print_E k v) = s * y /\ Rabs (y - Rabs v) <= / 2 * bpow radix10 (mag radix10 v - 1 - Z.of_nat k).
Proof.
  intros Hk D Hv s. assert (S := sci_spec k v Hv). unfold print_E. destruct (sci k v) as [m e]. destruct S as (A & B & C).
  assert (Me := mag10_bounds v D Hv). exists (IZR m * bpow radix10 (e - Z.of_nat k)). split; auto.
  assert (P := parse_E k m e (if Rlt_dec v 0 then true else false) Hk A ltac:(destruct B; lia)).
  unfold s. destruct (Rlt_dec v 0); rewrite P; ring.
Qed.
Lemma read_back_exact v : double v -> atof (print_E 16 v) = v.
Proof.
  intros D. unfold atof. destruct (Req_EM_T v 0) as [->|Hv].
  - unfold print_E, sci. destruct (Req_EM_T 0 0) as [_|]; [|lra]. assert (P := parse_E 16 0 0 (if Rlt_dec 0 0 then true else false)).
    destruct (Rlt_dec 0 0); [lra|]. rewrite P; [|lia|split; [lia|reflexivity]|reflexivity]. rewrite Rmult_0_r, Rmult_0_l. unfold round64. apply round_0. apply valid_rnd_N.
  - destruct (text_value 16 v ltac:(lia) D Hv) as (y & Ey & Hy). rewrite Ey. clear Ey. assert (F := double_format v D). destruct (Rlt_dec v 0).
    + replace (-1 * y) with (- y) by ring. rewrite round64_opp. rewrite (round_back (- v) y); [ring|lra|now apply generic_format_opp|].
      rewrite (Rabs_left v) in Hy by lra. rewrite mag_opp. exact Hy.
    + rewrite Rmult_1_l. apply round_back; [lra|auto|]. rewrite (Rabs_pos_eq v) in Hy by lra. exact Hy.
Qed.
Lemma relative_error k v : (0 < k)%nat -> double v -> Rabs (decimal_value (print_E k v) - v) <= 5 / 10 ^ (k + 1) * Rabs v.
Proof.
  intros Hk D. destruct (Req_EM_T v 0) as [->|Hv].
  - assert (P := parse_E k 0 0 (if Rlt_dec 0 0 then true else false)). unfold print_E, sci. destruct (Req_EM_T 0 0) as [_|]; [|lra].
    destruct (Rlt_dec 0 0); [lra|]. rewrite P; [|lia|split; [lia|apply Z.pow_pos_nonneg; lia]|reflexivity]. rewrite Rmult_0_r, Rmult_0_l, Rminus_0_r, Rabs_R0, Rmult_0_r. lra.
  - destruct (text_value k v Hk D Hv) as (y & -> & Hy).
    assert (E : Rabs ((if Rlt_dec v 0 then -1 else 1) * y - v) = Rabs (y - Rabs v)).
    { destruct (Rlt_dec v 0).
      - rewrite (Rabs_left v) by lra. rewrite <- Rabs_Ropp. f_equal. ring.
      - rewrite (Rabs_pos_eq v) by lra. f_equal. ring. }
    rewrite E. eapply Rle_trans; [exact Hy|].
    assert (B : bpow radix10 (mag radix10 v - 1) <= Rabs v) by now apply bpow_mag_le.
    unfold Z.sub at 1. rewrite bpow_plus. rewrite bpow_opp.
    assert (Ep : bpow radix10 (Z.of_nat k) = 10 ^ k).
    { rewrite <- (IZR_Zpower radix10) by lia. change (radix10 : Z) with 10%Z. now rewrite <- pow_IZR. }
    rewrite Ep, pow_add, pow_1. assert (0 < 10 ^ k) by (apply pow_lt; lra).
    replace (5 / (10 ^ k * 10) * Rabs v) with (/ 2 * (Rabs v * / 10 ^ k)) by (field; lra).
    apply Rmult_le_compat_l; [lra|]. apply Rmult_le_compat_r; [|exact B]. apply Rlt_le. now apply Rinv_0_lt_compat.
Qed.
Lemma example_double : double (IZR 6602847 / 2).
Proof. exists 6602847%Z, (-1)%Z. split; [reflexivity|]. split; [lia|]. unfold powerRZ. simpl. field. Qed.
