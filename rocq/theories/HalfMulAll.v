(** halfMul on every pair of bit patterns. *)
From Verif Require Import Base BaseProofs HalfModel HalfSpec HalfBits HalfConvProofs HalfProofs HalfAddProofs HalfMulProofs.
From Coq Require Import ZifyNat ZifyN ZifyBool.
Ltac Zify.zify_post_hook ::= idtac.
Local Open Scope Z_scope.

Definition shrv (j : Z -> Z -> Z) (a s : Z) : Z := w32 (if s <? 32 then Z.shiftr a s else j a s).
Definition shlv (j : Z -> Z -> Z) (a s : Z) : Z := w32 (if s <? 32 then Z.shiftl a s else j a s).
Lemma shr32_v j a s : shr32 (Some j) a s = Ok (shrv j a s).
Proof. unfold shr32, shrv. destruct (s <? 32); reflexivity. Qed.
Lemma shl32_v j a s : shl32 (Some j) a s = Ok (shlv j a s).
Proof. unfold shl32, shlv. destruct (s <? 32); reflexivity. Qed.

(** Exponent and fraction of the product when neither factor is subnormal, infinite or NaN: they depend on the
    product p of the significands and the sum E of the exponents only. *)
Definition mul_em (j : Z -> Z -> Z) (p E : Z) : Z :=
  let c_e_amount_unbiased := w32 (E - 0xf) in
  let is_c_e_unbiased_underflow := asr31 c_e_amount_unbiased in
  let c_e_underflow_half_sa := w32 (- c_e_amount_unbiased) in
  let c_e_underflow_sa := w32 (Z.shiftl c_e_underflow_half_sa 0x1) in
  let c_m_underflow := shrv j p c_e_underflow_sa in
  let c_e_underflow_added := w32 (Z.land c_e_amount_unbiased (Z.lnot is_c_e_unbiased_underflow)) in
  let c_m_underflow_added := selb32 is_c_e_unbiased_underflow c_m_underflow p in
  let is_mul_overflow_test := w32 (Z.land c_e_underflow_added 0x20) in
  let is_mul_overflow_msb := w32 (- is_mul_overflow_test) in
  let c_e_norm_radix_corrected := w32 (c_e_underflow_added + 1) in
  let c_m_norm_radix_corrected := w32 (Z.shiftr c_m_underflow_added 0x1) in
  let c_m_norm_hidden_bit := w32 (Z.land c_m_norm_radix_corrected 0x100000) in
  let is_c_m_norm_no_hidden_msb := w32 (c_m_norm_hidden_bit - 1) in
  let c_m_norm_lo := w32 (Z.shiftr c_m_norm_radix_corrected 0x5) in
  let c_m_norm_lo_nlz := cntlz16 (w16 c_m_norm_lo) in
  let is_c_m_hidden_nunderflow_msb := w32 (c_m_norm_lo_nlz - c_e_norm_radix_corrected) in
  let is_c_m_hidden_underflow_msb := w32 (Z.lnot is_c_m_hidden_nunderflow_msb) in
  let is_c_m_hidden_underflow := asr31 is_c_m_hidden_underflow_msb in
  let c_m_hidden_underflow_normalized_sa := w32 (Z.shiftr c_m_norm_lo_nlz 0x1) in
  let c_m_hidden_underflow_normalized := shlv j c_m_norm_radix_corrected c_m_hidden_underflow_normalized_sa in
  let c_m_hidden_normalized := shlv j c_m_norm_radix_corrected c_m_norm_lo_nlz in
  let c_e_hidden_normalized := w32 (c_e_norm_radix_corrected - c_m_norm_lo_nlz) in
  let c_e_hidden := w32 (Z.land c_e_hidden_normalized (Z.lnot is_c_m_hidden_underflow)) in
  let c_m_hidden := sels32 is_c_m_hidden_underflow_msb c_m_hidden_underflow_normalized c_m_hidden_normalized in
  let c_m_normalized := sels32 is_c_m_norm_no_hidden_msb c_m_hidden c_m_norm_radix_corrected in
  let c_e_normalized := sels32 is_c_m_norm_no_hidden_msb c_e_hidden c_e_norm_radix_corrected in
  let c_m_norm_round_amount := w32 (Z.land c_m_normalized 0x3ff) in
  let c_m_norm_rounded := w32 (c_m_normalized + c_m_norm_round_amount) in
  let is_round_overflow_test := w32 (Z.land c_e_normalized 0x20) in
  let is_round_overflow_msb := w32 (- is_round_overflow_test) in
  let c_m_norm_inplace := w32 (Z.shiftr c_m_norm_rounded 0xa) in
  let c_m := w32 (Z.land c_m_norm_inplace 0x3ff) in
  let c_e_norm_inplace := w32 (Z.shiftl c_e_normalized 0xa) in
  let c_e := w32 (Z.land c_e_norm_inplace 0x7c00) in
  let c_em_norm := w32 (Z.lor c_e c_m) in
  let is_overflow_msb := w32 (Z.lor is_round_overflow_msb is_mul_overflow_msb) in
  sels32 is_overflow_msb 0x7c00 c_em_norm.
(** The fraction when the second factor is zero or subnormal. *)
Definition mul_denorm (j : Z -> Z -> Z) (ea ma mb : Z) : Z :=
  let t := (1024 + ma) * mb in shrv j ((t + t mod 1024) / 1024) (w32 (15 - ea)) mod 1024.
Definition mul_cs (sx sy : Z) : Z := if sx =? sy then 0 else 2 ^ 15.
Definition mul_all (j : Z -> Z -> Z) (cs ea ma eb mb : Z) : Z :=
  if (ea =? 31) && (ma =? 0) && ((eb =? 0) && (mb =? 0)) then 0xfe00
  else if (eb =? 0) && negb (ea =? 31) then w16 (w32 (Z.lor cs (mul_denorm j ea ma mb)))
  else if (ea =? 31) || (eb =? 31) then w16 (w32 (Z.lor cs 0x7c00))
  else w16 (w32 (Z.lor cs (mul_em j ((1024 + ma) * (1024 + mb)) (ea + eb)))).

(** [lt]: keep the variable bound next with its definition. *)
Ltac lt := match goal with |- (let x := ?v in @?b x) = ?r => let y := fresh x in pose (y := v); change (b y = r); cbv beta end.
Ltac lts := repeat lt.
(** [same]: the variable bound next has a definition already kept. *)
Ltac same := match goal with |- (let x := ?v in _) = _ => first [match goal with y := v |- _ => st y; [reflexivity|] end|st v; [reflexivity|]] end.
Ltac bd := match goal with
  | |- bind (shr32 (Some ?j) ?a ?s) _ = _ => sd (shrv j a s); [apply shr32_v|]
  | |- bind (shl32 (Some ?j) ?a ?s) _ = _ => sd (shlv j a s); [apply shl32_v|] end.

Lemma halfMul_pick j sx ex mx sy ey my sa ea ma sb eb mb : hfields sx ex mx -> hfields sy ey my ->
  hpack sa ea ma = (if ex =? 0 then hpack sy ey my else hpack sx ex mx) -> hpack sb eb mb = (if ex =? 0 then hpack sx ex mx else hpack sy ey my) ->
  hfields sa ea ma -> hfields sb eb mb ->
  halfMul (Some j) (hpack sx ex mx) (hpack sy ey my) = Ok (mul_all j (mul_cs sx sy) ea ma eb mb).
Proof.
  intros Fx Fy PA PB Fa Fb. pose proof Fx as (Fxs & Fxe & Fxm). pose proof Fy as (Fys & Fye & Fym). pose proof Fa as (Fas & Fae & Fam). pose proof Fb as (Fbs & Fbe & Fbm).
  destruct (hpack_fields _ _ _ Fx) as (Bx & _), (hpack_fields _ _ _ Fy) as (By & _). unfold bits16 in Bx, By.
  set (cs := mul_cs sx sy). assert (Rcs : cs = 0 \/ cs = 2 ^ 15) by (unfold cs, mul_cs; destruct (sx =? sy); auto).
  un halfMul.
  st (sx * 2 ^ 15). { rewrite h_land_s by auto. wid; lia. }
  st (sy * 2 ^ 15). { rewrite h_land_s by auto. wid; lia. }
  st cs. { unfold cs, mul_cs. assert (sx = 0 \/ sx = 1) as [-> | ->] by lia; assert (sy = 0 \/ sy = 1) as [-> | ->] by lia; reflexivity. }
  st (ex * 2 ^ 10). { rewrite h_land_e by auto. wid; lia. }
  sp (fun t => msb32 t (ex =? 0)) T1. { eapply msb32_if; [apply msb32_small; lia|lia]. }
  st (hpack sa ea ma). { rewrite (sels32_eq _ _ _ _ T1); [|lia|lia]. now rewrite PA. }
  st (hpack sb eb mb). { rewrite (sels32_eq _ _ _ _ T1); [|lia|lia]. now rewrite PB. }
  st (ea * 2 ^ 10). { rewrite h_land_e by auto. wid; lia. }
  st (eb * 2 ^ 10). { rewrite h_land_e by auto. wid; lia. }
  st ma. { rewrite h_land_m by auto. wid; lia. }
  st mb. { rewrite h_land_m by auto. wid; lia. }
  st ea. { sh. rewrite Z.div_mul by lia. wid; lia. }
  st eb. { sh. rewrite Z.div_mul by lia. wid; lia. }
  st (1024 + ma). { change 1024 with (1 * 2 ^ 10) at 1. rewrite lor_add' by lia. wid; lia. }
  st (1024 + mb). { change 1024 with (1 * 2 ^ 10) at 1. rewrite lor_add' by lia. wid; lia. }
  set (p := (1024 + ma) * (1024 + mb)). assert (Rp : 0 <= p < 2 ^ 22) by (unfold p; change (2 ^ 22) with (2048 * 2048); nia).
  set (t := (1024 + ma) * mb). assert (Rt : 0 <= t < 2 ^ 21) by (unfold t; change (2 ^ 21) with (2048 * 1024); nia).
  assert (Rtm := Z.mod_pos_bound t 1024 ltac:(lia)).
  st p. { fold p. wid; lia. }
  st t. { fold t. wid; lia. }
  st (w32 (15 - ea)). { reflexivity. }
  st (t mod 1024). { change 1023 with (2 ^ 10 - 1). rewrite land_low by lia. change (2 ^ 10) with 1024. wid; lia. }
  st (t + t mod 1024). { wid; lia. }
  assert (Rd : 0 <= (t + t mod 1024) / 1024 < 2 ^ 12). { split; [apply Z.div_pos; lia|apply Z.div_lt_upper_bound; lia]. }
  st ((t + t mod 1024) / 1024). { sh. change (2 ^ 10) with 1024. wid; lia. }
  sd (shrv j ((t + t mod 1024) / 1024) (w32 (15 - ea))). { apply shr32_v. }
  set (D := mul_denorm j ea ma mb).
  assert (RD : 0 <= D < 1024) by (unfold D, mul_denorm; apply Z.mod_pos_bound; lia).
  st D. { change 1023 with (2 ^ 10 - 1). rewrite land_low by lia. change (2 ^ 10) with 1024. fold t in D. change (w32 D = D). wid; lia. }
  st (ea + eb). { wid; lia. }
  lts; bd. lts; bd. bd. lts.
  assert (EM : c_em_overflow_result = mul_em j p (ea + eb)). { symmetry. un mul_em. repeat same. reflexivity. }
  assert (R32 : forall v, 0 <= w32 v < 2 ^ 32) by apply w32_range.
  assert (RS : forall u v w, 0 <= sels32 u v w < 2 ^ 32) by (intros; unfold sels32; apply w32_range).
  clearbody c_em_overflow_result.
  assert (Taf : msb32 is_a_e_flagged_msb (ea =? 31)) by (eapply msb32_if; [apply msb32_small; lia|lia]).
  assert (Tbf : msb32 is_b_e_flagged_msb (eb =? 31)) by (eapply msb32_if; [apply msb32_small; lia|lia]).
  assert (Tae : msb32 is_a_e_eqz_msb (ea =? 0)) by (eapply msb32_if; [apply msb32_small; lia|lia]).
  assert (Tam : msb32 is_a_m_eqz_msb (ma =? 0)) by (eapply msb32_if; [apply msb32_small; lia|lia]).
  assert (Tbe : msb32 is_b_e_eqz_msb (eb =? 0)) by (eapply msb32_if; [apply msb32_small; lia|lia]).
  assert (Tbm : msb32 is_b_m_eqz_msb (mb =? 0)) by (eapply msb32_if; [apply msb32_small; lia|lia]).
  assert (Tbz : msb32 is_b_eqz_msb ((eb =? 0) && (mb =? 0))) by (apply msb32_land; assumption).
  assert (Taz : msb32 is_a_eqz_msb ((ea =? 0) && (ma =? 0))) by (apply msb32_land; assumption).
  assert (Tna : msb32 is_c_nan_via_a_msb ((ea =? 31) && negb (eb =? 31))) by (apply msb32_landn; assumption).
  assert (Tnb : msb32 is_c_nan_via_b_msb ((eb =? 31) && negb (mb =? 0))) by (apply msb32_landn; assumption).
  assert (Tn : msb32 is_c_nan_msb ((ea =? 31) && negb (eb =? 31) || (eb =? 31) && negb (mb =? 0))) by (apply msb32_lor; assumption).
  assert (Tdn : msb32 is_c_denorm_msb ((eb =? 0) && negb (ea =? 31))) by (apply msb32_landn; assumption).
  assert (Tai : msb32 is_a_inf_msb ((ea =? 31) && (ma =? 0))) by (apply msb32_land; assumption).
  assert (Tsn : msb32 is_c_snan_msb ((ea =? 31) && (ma =? 0) && ((eb =? 0) && (mb =? 0)))) by (apply msb32_land; assumption).
  assert (Tma : msb32 is_c_nan_min_via_a_msb ((ea =? 31) && ((eb =? 0) && (mb =? 0)))) by (apply msb32_land; assumption).
  assert (Tmb : msb32 is_c_nan_min_via_b_msb ((eb =? 31) && ((ea =? 0) && (ma =? 0)))) by (apply msb32_land; assumption).
  assert (Tm : msb32 is_c_nan_min_msb ((ea =? 31) && ((eb =? 0) && (mb =? 0)) || (eb =? 31) && ((ea =? 0) && (ma =? 0)))) by (apply msb32_lor; assumption).
  assert (Ti : msb32 is_c_inf_msb ((ea =? 31) || (eb =? 31))) by (apply msb32_lor; assumption).
  f_equal. unfold c_result. rewrite (sels32_eq _ _ _ _ Tsn) by (try apply RS; lia).
  unfold c_denorm_result. rewrite (sels32_eq _ _ _ _ Tdn) by (try apply RS; apply R32).
  unfold c_inf_result. rewrite (sels32_eq _ _ _ _ Ti) by (try apply RS; apply R32).
  unfold mul_all. fold D p. rewrite <- EM.
  destruct ((ea =? 31) && (ma =? 0) && ((eb =? 0) && (mb =? 0))) eqn:C1; [reflexivity|].
  destruct ((eb =? 0) && negb (ea =? 31)) eqn:C2; [reflexivity|].
  destruct ((ea =? 31) || (eb =? 31)) eqn:C3; [reflexivity|].
  apply orb_false_elim in C3. destruct C3 as (C3 & C4). rewrite C3, C4 in *. cbn [negb andb orb] in *. rewrite andb_true_r in C2. rewrite C2 in *. cbn [andb] in *.
  unfold c_nan_min_result. rewrite (sels32_eq _ _ _ _ Tm) by (try apply RS; lia). cbv iota.
  unfold c_nan_result. rewrite (sels32_eq _ _ _ _ Tn) by (try apply RS; apply R32). cbv iota.
  unfold c_zero_result. rewrite (sels32_eq _ _ _ _ Tbz) by (try apply R32; lia). reflexivity.
Qed.

Lemma halfMul_all j sx ex mx sy ey my : hfields sx ex mx -> hfields sy ey my ->
  halfMul (Some j) (hpack sx ex mx) (hpack sy ey my) =
  Ok (if ex =? 0 then mul_all j (mul_cs sx sy) ey my ex mx else mul_all j (mul_cs sx sy) ex mx ey my).
Proof.
  intros Fx Fy. destruct (ex =? 0) eqn:E.
  - apply (halfMul_pick j sx ex mx sy ey my sy ey my sx ex mx); auto; now rewrite E.
  - apply (halfMul_pick j sx ex mx sy ey my sx ex mx sy ey my); auto; now rewrite E.
Qed.
Lemma mul_denorm_zero j ma mb : 0 <= ma < 1024 -> 0 <= mb < 1024 -> mul_denorm j 0 ma mb = 0.
Proof.
  intros Ha Hb. unfold mul_denorm, shrv. change (w32 (15 - 0)) with 15. change (15 <? 32) with true. cbv iota. sh.
  set (t := (1024 + ma) * mb). assert (Rt : 0 <= t < 2 ^ 21) by (unfold t; change (2 ^ 21) with (2048 * 1024); nia).
  pose proof (Z.mod_pos_bound t 1024 ltac:(lia)). assert (Rd : 0 <= (t + t mod 1024) / 1024 < 2 ^ 12) by (split; [apply Z.div_pos; lia|apply Z.div_lt_upper_bound; lia]).
  rewrite (Z.div_small ((t + t mod 1024) / 1024)) by lia. reflexivity.
Qed.
(** Commutative, whatever the bit patterns. *)
Lemma halfMul_commutes j x y : bits16 x -> bits16 y -> halfMul (Some j) x y = halfMul (Some j) y x.
Proof.
  intros Bx By. destruct (hpack_of x Bx) as (Fx & Ex), (hpack_of y By) as (Fy & Ey).
  rewrite <- Ex, <- Ey. rewrite !halfMul_all by assumption. f_equal.
  replace (mul_cs (hsign y) (hsign x)) with (mul_cs (hsign x) (hsign y)) by (unfold mul_cs; rewrite Z.eqb_sym; reflexivity).
  set (cs := mul_cs _ _). destruct Fx as (_ & Rex & Rmx), Fy as (_ & Rey & Rmy).
  destruct (hexp x =? 0) eqn:Zx, (hexp y =? 0) eqn:Zy; try reflexivity.
  - unfold mul_all. rewrite Zx, Zy. replace (hexp x) with 0 by lia. replace (hexp y) with 0 by lia. cbn [Z.eqb andb negb]. rewrite !mul_denorm_zero by assumption. reflexivity.
  - unfold mul_all. rewrite Zx, Zy. cbn [andb]. rewrite !andb_false_r. rewrite (orb_comm (hexp y =? 31)), (Z.mul_comm (1024 + hfrac y)), (Z.add_comm (hexp y)). reflexivity.
Qed.

(** ** Products of normal numbers below the normal range *)
Ltac stc := match goal with |- (let x := ?v in _) = _ => let c := eval vm_compute in v in st c; [reflexivity|] end.
Lemma mul_under j p s : 0 <= s <= 13 -> 2 ^ 20 <= p < 2 ^ 22 -> (s = 0 -> p < 2 ^ 21) ->
  let q := p / 2 ^ (2 * s + 1) * 2 ^ (Z.min s 8) in mul_em j p (15 - s) = (q + q mod 1024) / 1024 mod 1024.
Proof.
  intros Hs Hp H0 q.
  assert (E1 : p / 2 ^ (2 * s + 1) = p / 2 ^ (2 * s) / 2) by (rewrite Z.pow_add_r, Zdiv_Zdiv by lia; reflexivity).
  assert (Rh : 0 <= p / 2 ^ (2 * s) / 2 < 2 ^ 20).
  { rewrite <- E1. split; [apply Z.div_pos; lia|]. apply Z.div_lt_upper_bound; [lia|]. destruct (Z.eq_dec s 0) as [-> |]; [cbn; lia|].
    assert (2 ^ 3 <= 2 ^ (2 * s + 1)) by (apply Z.pow_le_mono_r; lia). change (2 ^ 22) with 4194304 in Hp. lia. }
  assert (R0 : 0 <= p / 2 ^ (2 * s) < 2 ^ 22) by (split; [apply Z.div_pos; lia|apply Z.le_lt_trans with p; [apply Z.div_le_upper_bound; [apply pow_pos; lia|]; pose proof (pow_pos (2 * s) ltac:(lia)); clear - H Hp; nia|lia]]).
  set (h := p / 2 ^ (2 * s) / 2) in *.
  (* leading zeros *)
  assert (NL : exists n, cntlz16 (h / 32) = n /\ 1 <= n <= 16 /\ n / 2 = Z.min s 8).
  { destruct (Z_lt_le_dec h 32) as [L|L].
    - exists 16. rewrite Z.div_small by lia. split; [reflexivity|]. split; [lia|]. change (16 / 2) with 8.
      assert (8 <= s); [|lia]. destruct (Z_lt_le_dec s 8) as [L2|]; [|lia]. exfalso.
      assert (2 ^ 5 <= h); [|lia]. rewrite <- E1. apply Z.div_le_lower_bound; [lia|]. apply Z.le_trans with (2 ^ 20); [|lia]. rewrite <- Z.pow_add_r by lia. apply Z.pow_le_mono_r; lia.
    - assert (S7 : s <= 7 \/ (s = 8 /\ 2 ^ 21 <= p) \/ 9 <= s).
      { destruct (Z_le_gt_dec s 7); [auto|]. destruct (Z.eq_dec s 8) as [-> |]; [|lia]. right. left. split; [auto|]. rewrite <- E1 in L. change (2 * 8 + 1) with 17 in L.
        destruct (Z_lt_le_dec p (2 ^ 21)); [|lia]. exfalso. assert (p / 2 ^ 17 < 2 ^ 4) by (apply Z.div_lt_upper_bound; lia). lia. }
      destruct S7 as [S7|[(-> & S8)|S9]].
      + set (b := if 2 ^ 21 <=? p then 1 else 0). assert (Rb : 0 <= b <= 1 /\ 2 ^ (20 + b) <= p < 2 ^ (21 + b)).
        { unfold b. destruct (2 ^ 21 <=? p) eqn:E; (split; [lia|]); [change (20 + 1) with 21; change (21 + 1) with 22|change (20 + 0) with 20; change (21 + 0) with 21]; lia. }
        destruct Rb as (Rb & P1 & P2). assert (B0 : s = 0 -> b = 0) by (intros Q; specialize (H0 Q); unfold b; replace (2 ^ 21 <=? p) with false by lia; reflexivity). clearbody b.
        exists (1 - b + 2 * s). split.
        * clear - Hs E1 S7 Rb P1 P2. replace (1 - b + 2 * s) with (15 - (14 + b - 2 * s)) by lia. apply cntlz16_pos; [clear - Hs S7 Rb; lia|]. rewrite <- E1. split.
          -- apply Z.div_le_lower_bound; [lia|]. apply Z.div_le_lower_bound; [apply pow_pos; clear - Hs; lia|]. change 32 with (2 ^ 5). rewrite <- !Z.pow_add_r by (clear - Hs S7 Rb; lia).
             replace (2 * s + 1 + (5 + (14 + b - 2 * s))) with (20 + b) by lia. exact P1.
          -- apply Z.div_lt_upper_bound; [lia|]. apply Z.div_lt_upper_bound; [apply pow_pos; clear - Hs; lia|]. change 32 with (2 ^ 5). rewrite <- !Z.pow_add_r by (clear - Hs S7 Rb; lia).
             replace (2 * s + 1 + (5 + (14 + b - 2 * s + 1))) with (21 + b) by lia. exact P2.
        * split; [clear - Rb B0 S7 Hs; lia|]. rewrite Z.min_l by (clear - S7; lia). apply div_unique_small with (1 - b); lia.
      + exfalso. rewrite <- E1 in L. change (2 * 8 + 1) with 17 in L. assert (p / 2 ^ 17 < 32) by (apply Z.div_lt_upper_bound; lia). lia.
      + exfalso. rewrite <- E1 in L. assert (p / 2 ^ (2 * s + 1) < 32); [|lia]. apply Z.div_lt_upper_bound; [apply pow_pos; lia|].
        assert (2 ^ 17 <= 2 ^ (2 * s + 1)) by (apply Z.pow_le_mono_r; lia). change (2 ^ 17) with 131072 in *. change (2 ^ 22) with 4194304 in *. lia. }
  destruct NL as (n & En & Rn & Hn).
  assert (Rq : 0 <= q < 2 ^ 30).
  { unfold q. rewrite E1. fold h. split; [apply Z.mul_nonneg_nonneg; [lia|apply Z.pow_nonneg; lia]|].
    assert (2 ^ Z.min s 8 <= 2 ^ 8) by (apply Z.pow_le_mono_r; lia). apply Z.le_lt_trans with (h * 2 ^ 8); [apply Z.mul_le_mono_nonneg_l; lia|]. clear - Rh. lia. }
  assert (RS : forall u v w, 0 <= sels32 u v w < 2 ^ 32) by (intros; unfold sels32; apply w32_range).
  un mul_em.
  sp (fun t => t = w32 (- s)) U1. { f_equal. lia. }
  assert (Tu : msb32 c_e_amount_unbiased (0 <? s)) by (rewrite U1; eapply msb32_if; [apply msb32_small; lia|lia]).
  st (if 0 <? s then 2 ^ 32 - 1 else 0). { rewrite (asr31_eq _ _ Tu). reflexivity. }
  st s. { rewrite U1. unfold w32. clear - Hs. destruct (Z.eq_dec s 0) as [-> |]; [reflexivity|].
    rewrite (Z.mod_opp_l_nz s (2 ^ 32)) by (rewrite ?Z.mod_small; lia). rewrite (Z.mod_small s) by lia. replace (- (2 ^ 32 - s)) with (s + (-1) * 2 ^ 32) by lia. rewrite Z.mod_add by lia. apply Z.mod_small. lia. }
  st (2 * s). { rewrite Z.shiftl_mul_pow2 by (clear; lia). change (2 ^ 1) with 2. rewrite w32_id by (clear - Hs; lia). clear; lia. }
  st (p / 2 ^ (2 * s)). { unfold shrv. replace (2 * s <? 32) with true by (clear - Hs; lia). rewrite Z.shiftr_div_pow2 by (clear - Hs; lia). apply w32_id. clear - R0. lia. }
  st 0. { rewrite U1. destruct (0 <? s) eqn:E; [|replace s with 0 by lia; reflexivity].
    assert (K : exists k, s = k /\ (k = 1 \/ k = 2 \/ k = 3 \/ k = 4 \/ k = 5 \/ k = 6 \/ k = 7 \/ k = 8 \/ k = 9 \/ k = 10 \/ k = 11 \/ k = 12 \/ k = 13)) by (exists s; lia).
    destruct K as (k & -> & K). clear - K. repeat destruct K as [-> | K]; [..|subst k]; vm_compute; reflexivity. }
  st (p / 2 ^ (2 * s)). { rewrite (selb32_eq _ (0 <? s)) by (lia || (destruct (0 <? s); reflexivity)). destruct (0 <? s) eqn:E; [reflexivity|]. replace s with 0 by lia. change (2 ^ (2 * 0)) with 1. now rewrite Z.div_1_r. }
  do 3 stc.
  st h. { rewrite Z.shiftr_div_pow2 by (clear; lia). change (2 ^ 1) with 2. fold h. apply w32_id. clear - Rh. lia. }
  st 0. { change 1048576 with (2 ^ 20). rewrite land_bit by lia. rewrite testbit_high by (cbn [Z.add]; lia). replace (2 ^ 20 <=? h) with false by lia. reflexivity. }
  stc. clearbody h. clear R0.
  assert (R5 : 0 <= h / 32 < 2 ^ 15) by (split; [apply Z.div_pos; lia|apply Z.div_lt_upper_bound; lia]).
  st (h / 32). { sh. change (2 ^ 5) with 32. wid; lia. }
  st n. { rewrite w16_id by lia. exact En. }
  sp (fun t => msb32 t false) Tnu. { eapply msb32_if; [apply msb32_small; lia|lia]. }
  sp (fun t => msb32 t true) Thu. { apply (msb32_lnot _ false). auto. }
  st (2 ^ 32 - 1). { apply (asr31_eq _ true Thu). }
  st (Z.min s 8). { sh. change (2 ^ 1) with 2. rewrite Hn. wid; lia. }
  st q. { unfold shlv. replace (Z.min s 8 <? 32) with true by lia. sh. unfold q in *. rewrite E1 in *. apply w32_id. clear - Rq. lia. }
  clearbody q. clear E1.
  sp (fun t => 0 <= t < 2 ^ 32) U2. { apply w32_range. }
  sp (fun t => 0 <= t < 2 ^ 32) U3. { apply w32_range. }
  st 0. { clear - U3. change (Z.lnot (2 ^ 32 - 1)) with (- 2 ^ 32). rewrite <- (Z.land_m1_r 0).
    change (- 2 ^ 32) with (Z.lnot (Z.ones 32)). rewrite <- Z.ldiff_land, Z.ldiff_ones_r by lia. rewrite Z.shiftr_div_pow2, Z.div_small by lia. reflexivity. }
  st q. { rewrite (sels32_eq _ _ _ _ Thu); [reflexivity|lia|lia]. }
  assert (Tn1 : msb32 (2 ^ 32 - 1) true) by (split; [lia|reflexivity]).
  st q. { change 4294967295 with (2 ^ 32 - 1). rewrite (sels32_eq _ _ _ _ Tn1); [reflexivity|lia|lia]. }
  stc.
  pose proof (Z.mod_pos_bound q 1024 ltac:(lia)) as Rr.
  st (q mod 1024). { change 1023 with (2 ^ 10 - 1). rewrite land_low by lia. change (2 ^ 10) with 1024. wid; lia. }
  st (q + q mod 1024). { wid; lia. }
  do 2 stc.
  assert (Ri : 0 <= (q + q mod 1024) / 1024 < 2 ^ 22). { split; [apply Z.div_pos; lia|apply Z.div_lt_upper_bound; lia]. }
  st ((q + q mod 1024) / 1024). { sh. change (2 ^ 10) with 1024. wid; lia. }
  set (cm := (q + q mod 1024) / 1024 mod 1024). assert (Rcm : 0 <= cm < 1024) by (apply Z.mod_pos_bound; lia).
  st cm. { change 1023 with (2 ^ 10 - 1). rewrite land_low by lia. change (2 ^ 10) with 1024. fold cm. wid; lia. }
  do 2 stc.
  st cm. { rewrite Z.lor_0_l. wid; lia. }
  stc. rewrite (sels32_eq 0 false); [reflexivity|split; [lia|reflexivity]|lia|lia].
Qed.

Lemma cs_lor x y m : 0 <= m < 2 ^ 15 -> w16 (w32 (Z.lor (mul_cs (hsign x) (hsign y)) m)) = product_sign x y * 2 ^ 15 + m.
Proof.
  intros Hm. unfold mul_cs, product_sign. destruct (hsign x =? hsign y).
  - rewrite Z.lor_0_l. rewrite w32_id, w16_id by lia. lia.
  - change (2 ^ 15) with (1 * 2 ^ 15) at 1. rewrite lor_add by lia. rewrite w32_id, w16_id by lia. reflexivity.
Qed.
Lemma product_sign_range x y : 0 <= product_sign x y < 2.
Proof. unfold product_sign. destruct (hsign x =? hsign y); lia. Qed.
Lemma units_product x y : bits16 x -> bits16 y ->
  half_units x * half_units y = if product_sign x y =? 0 then half_magnitude x * half_magnitude y else - (half_magnitude x * half_magnitude y).
Proof.
  intros Bx By. destruct (hpack_of x Bx) as ((Rsx & _) & _), (hpack_of y By) as ((Rsy & _) & _). unfold half_units, product_sign.
  assert (hsign x = 0 \/ hsign x = 1) as [Q1|Q1] by lia; assert (hsign y = 0 \/ hsign y = 1) as [Q2|Q2] by lia; rewrite Q1, Q2; cbn [Z.eqb Pos.eqb]; ring.
Qed.
(** A subnormal result. *)
Lemma subnormal_result x y d : 0 <= d < 1024 -> let r := product_sign x y * 2 ^ 15 + d in
  bits16 r /\ hsign r = product_sign x y /\ hexp r = 0 /\ hfrac r = d /\ half_finite r /\ half_magnitude r = d.
Proof.
  intros Hd r. assert (F : hfields (product_sign x y) 0 d) by (pose proof (product_sign_range x y); unfold hfields; lia).
  destruct (hpack_fields _ _ _ F) as (B & P1 & P2 & P3). replace (hpack (product_sign x y) 0 d) with r in * by (unfold hpack, r; lia).
  repeat split; auto; [apply B|apply B|unfold half_finite; lia|]. unfold half_magnitude. rewrite P2, P3. reflexivity.
Qed.
Lemma split_by p v : 0 < v -> exists a r, p / v = a /\ p = v * a + r /\ 0 <= r < v.
Proof. intros H. exists (p / v), (p mod v). split; [reflexivity|]. split; [apply Z.div_mod; lia|now apply Z.mod_pos_bound]. Qed.
Lemma round_by q : exists c e, (q + q mod 1024) / 1024 = e /\ q = 1024 * e + c /\ - 512 <= c < 512.
Proof.
  pose proof (Z.div_mod q 1024 ltac:(lia)). pose proof (Z.mod_pos_bound q 1024 ltac:(lia)). set (b := q / 1024) in *. set (m := q mod 1024) in *.
  exists (q - 1024 * (if m <? 512 then b else b + 1)), (if m <? 512 then b else b + 1).
  destruct (m <? 512) eqn:E; (split; [|lia]); [apply div_unique_small with (2 * m); lia|apply div_unique_small with (2 * m - 1024); lia].
Qed.
Lemma under_round p s : 0 <= s <= 13 -> 2 ^ 20 <= p < 2 ^ 22 -> 2 * p < 2047 * 2 ^ (11 + s) ->
  let q := p / 2 ^ (2 * s + 1) * 2 ^ (Z.min s 8) in let d := (q + q mod 1024) / 1024 in
  0 <= d < 1024 /\ Z.abs (d * 2 ^ (11 + s) - p) < 2 * 2 ^ (11 + s) /\
  (s <= 8 -> 2 * (p - d * 2 ^ (11 + s)) < 2 ^ (11 + s) /\ 2 * (d * 2 ^ (11 + s) - p) <= 2 ^ (11 + s)).
Proof.
  intros Hs Hp Hb q d.
  assert (K : s = 0 \/ s = 1 \/ s = 2 \/ s = 3 \/ s = 4 \/ s = 5 \/ s = 6 \/ s = 7 \/ s = 8 \/ s = 9 \/ s = 10 \/ s = 11 \/ s = 12 \/ s = 13) by lia.
  unfold d, q. clear d q Hs.
  repeat destruct K as [K|K]; subst s;
    match goal with |- context [p / 2 ^ (2 * ?k + 1)] => let v := eval vm_compute in (2 ^ (2 * k + 1)) in change (2 ^ (2 * k + 1)) with v in * end;
    match goal with |- context [2 ^ Z.min ?k 8] => let v := eval vm_compute in (2 ^ Z.min k 8) in change (2 ^ Z.min k 8) with v in * end;
    match goal with |- context [2 ^ (11 + ?k)] => let v := eval vm_compute in (2 ^ (11 + k)) in change (2 ^ (11 + k)) with v in * end;
    match goal with |- context [p / ?v * ?w] => destruct (split_by p v ltac:(lia)) as (a & r & -> & D1 & D2); destruct (round_by (a * w)) as (c & e & -> & D3 & D4) end;
    (split; [|split]); lia.
Qed.
Lemma halfMul_fields j x y : bits16 x -> bits16 y -> halfMul (Some j) x y =
  Ok (if hexp x =? 0 then mul_all j (mul_cs (hsign x) (hsign y)) (hexp y) (hfrac y) (hexp x) (hfrac x) else mul_all j (mul_cs (hsign x) (hsign y)) (hexp x) (hfrac x) (hexp y) (hfrac y)).
Proof.
  intros Bx By. destruct (hpack_of x Bx) as (Fx & Ex), (hpack_of y By) as (Fy & Ey). rewrite <- Ex at 1. rewrite <- Ey at 1. now apply halfMul_all.
Qed.
Lemma magnitude_normal x : half_normal x -> half_magnitude x = (1024 + hfrac x) * 2 ^ (hexp x - 1).
Proof. unfold half_normal, half_magnitude. intros H. replace (hexp x =? 0) with false by lia. reflexivity. Qed.
Lemma abs_product x y : bits16 x -> bits16 y -> half_finite x -> half_finite y -> Z.abs (half_units x * half_units y) = half_magnitude x * half_magnitude y.
Proof. intros. now rewrite Z.abs_mul, !half_units_abs. Qed.

(** Two normal factors, product below the normal range. *)
Lemma halfMul_small j x y : bits16 x -> bits16 y -> half_normal x -> half_normal y -> hexp x + hexp y <= 15 ->
  2 * Z.abs (half_units x * half_units y) < 2047 * 2 ^ 24 ->
  exists r, halfMul (Some j) x y = Ok r /\ bits16 r /\ hexp r = 0 /\ hsign r = product_sign x y /\
    Z.abs (half_units r * 2 ^ 24 - half_units x * half_units y) < 2 * 2 ^ 24 /\
    (7 <= hexp x + hexp y -> nearest (2 ^ 24) r (half_units x * half_units y) /\ ties_away (2 ^ 24) r (half_units x * half_units y)).
Proof.
  intros Bx By Nx Ny HE Hb. rewrite abs_product in Hb by (auto; unfold half_finite, half_normal in *; lia).
  rewrite units_product by auto. rewrite (magnitude_normal x Nx), (magnitude_normal y Ny) in *.
  destruct (hpack_of x Bx) as ((_ & Rex & Rmx) & _), (hpack_of y By) as ((_ & Rey & Rmy) & _). unfold half_normal in Nx, Ny.
  set (s := 15 - (hexp x + hexp y)) in *. assert (Hs : 0 <= s <= 13) by lia.
  set (p := (1024 + hfrac x) * (1024 + hfrac y)).
  assert (Rp : 2 ^ 20 <= p < 2 ^ 22) by (unfold p; change (2 ^ 20) with (1024 * 1024); change (2 ^ 22) with (2048 * 2048); nia).
  set (G := 2 ^ (13 - s)). assert (HG : 0 < G) by (apply pow_pos; lia).
  assert (PP : (1024 + hfrac x) * 2 ^ (hexp x - 1) * ((1024 + hfrac y) * 2 ^ (hexp y - 1)) = p * G).
  { unfold p, G, s. replace (13 - (15 - (hexp x + hexp y))) with ((hexp x - 1) + (hexp y - 1)) by lia. rewrite Z.pow_add_r by lia. ring. }
  assert (U : 2 ^ 24 = 2 ^ (11 + s) * G) by (unfold G; rewrite <- Z.pow_add_r by lia; f_equal; lia).
  rewrite PP in *. set (H := 2 ^ (11 + s)) in *. assert (HH : 0 < H) by (apply pow_pos; lia).
  assert (Hb' : 2 * p < 2047 * H) by (rewrite U in Hb; apply Z.mul_lt_mono_pos_r with G; [exact HG|]; lia).
  destruct (under_round p s Hs Rp Hb') as (Rd & D1 & D2). fold H in D1, D2.
  assert (S0 : s = 0 -> p < 2 ^ 21) by (intros Q; unfold H in Hb'; rewrite Q in Hb'; change (2 ^ (11 + 0)) with 2048 in Hb'; change (2 ^ 21) with 2097152; clear - Hb'; lia).
  pose proof (mul_under j p s Hs Rp S0) as MU. cbv zeta in MU, Rd, D1, D2.
  set (q := p / 2 ^ (2 * s + 1) * 2 ^ Z.min s 8) in *. set (d := (q + q mod 1024) / 1024) in *. rewrite (Z.mod_small d) in MU by lia.
  destruct (subnormal_result x y d Rd) as (Br & Sr & Er & _ & Fr & Mr). set (r := product_sign x y * 2 ^ 15 + d) in *.
  assert (NR : s <= 8 -> nearest (2 ^ 24) r (if product_sign x y =? 0 then p * G else - (p * G)) /\ ties_away (2 ^ 24) r (if product_sign x y =? 0 then p * G else - (p * G))).
  { intros L. destruct (D2 L) as (K1 & K2). rewrite <- Sr. apply (nearest_away (2 ^ 24) r (p * G) d 0); auto; try lia.
    - change (2 ^ 0) with 1. rewrite U. replace (2 * (p * G - d * 1 * (H * G))) with (2 * (p - d * H) * G) by ring. replace (1 * (H * G)) with (H * G) by ring. apply Z.mul_lt_mono_pos_r; auto.
    - change (2 ^ 0) with 1. rewrite U. replace (2 * (d * 1 * (H * G) - p * G)) with (2 * (d * H - p) * G) by ring. replace (1 * (H * G)) with (H * G) by ring. apply Z.mul_le_mono_nonneg_r; lia. }
  exists r. split; [|split; [exact Br|split; [exact Er|split; [exact Sr|split]]]].
  - rewrite halfMul_fields by auto. replace (hexp x =? 0) with false by lia. unfold mul_all. f_equal.
    replace (hexp x =? 31) with false by lia. replace (hexp y =? 0) with false by lia. replace (hexp y =? 31) with false by lia. cbn [andb orb].
    fold p. replace (hexp x + hexp y) with (15 - s) by lia. rewrite MU. apply cs_lor. lia.
  - unfold half_units. rewrite Sr, Mr. rewrite U. destruct (product_sign x y =? 0).
    + replace (d * (H * G) - p * G) with ((d * H - p) * G) by ring. rewrite Z.abs_mul, (Z.abs_eq G) by lia. replace (2 * (H * G)) with (2 * H * G) by ring. now apply Z.mul_lt_mono_pos_r.
    + replace (- d * (H * G) - - (p * G)) with (- ((d * H - p) * G)) by ring. rewrite Z.abs_opp, Z.abs_mul, (Z.abs_eq G) by lia. replace (2 * (H * G)) with (2 * H * G) by ring. now apply Z.mul_lt_mono_pos_r.
  - intros L. apply NR. lia.
Qed.

(** A normal factor below 2 and a zero or subnormal one. *)
Lemma halfMul_subnormal j x y : bits16 x -> bits16 y -> 1 <= hexp x <= 15 -> hexp y = 0 ->
  2 * Z.abs (half_units x * half_units y) < 2047 * 2 ^ 24 ->
  exists r, halfMul (Some j) x y = Ok r /\ bits16 r /\ hexp r = 0 /\ hsign r = product_sign x y /\
    Z.abs (half_units r * 2 ^ 24 - half_units x * half_units y) < 2 ^ 24 /\
    (hexp x = 15 -> nearest (2 ^ 24) r (half_units x * half_units y) /\ ties_away (2 ^ 24) r (half_units x * half_units y)).
Proof.
  intros Bx By Ex Ey Hb. rewrite abs_product in Hb by (auto; unfold half_finite; lia).
  rewrite units_product by auto. rewrite (magnitude_normal x) in * by (unfold half_normal; lia).
  replace (half_magnitude y) with (hfrac y) in * by (unfold half_magnitude; rewrite Ey; reflexivity).
  destruct (hpack_of x Bx) as ((_ & _ & Rmx) & _), (hpack_of y By) as ((_ & _ & Rmy) & _).
  set (t := (1024 + hfrac x) * hfrac y). assert (Rt : 0 <= t <= 2047 * 1023) by (unfold t; nia).
  set (k := 15 - hexp x). set (G := 2 ^ (hexp x - 1)) in *. assert (HG : 0 < G) by (apply pow_pos; lia).
  assert (PP : (1024 + hfrac x) * G * hfrac y = t * G) by (unfold t; ring). rewrite PP in *.
  set (V := 2 ^ k). assert (HV : 0 < V) by (apply pow_pos; lia).
  assert (U : 2 ^ 24 = 1024 * V * G) by (unfold V, G, k; change 1024 with (2 ^ 10); rewrite <- !Z.pow_add_r by lia; f_equal; lia).
  assert (Hb' : 2 * t < 2047 * (1024 * V)) by (rewrite U in Hb; apply Z.mul_lt_mono_pos_r with G; [exact HG|]; lia).
  assert (Q : exists d, mul_denorm j (hexp x) (hfrac x) (hfrac y) = d /\ 0 <= d < 1024 /\ - (1024 * V) < d * (1024 * V) - t < 1024 * V /\ (V = 1 -> 2 * (t - d * 1024) < 1024 /\ 2 * (d * 1024 - t) <= 1024)).
  { unfold mul_denorm. fold t. destruct (round_by t) as (c & e & -> & D1 & D2). rewrite w32_id by lia. unfold shrv. fold k. replace (k <? 32) with true by lia. rewrite Z.shiftr_div_pow2 by lia. fold V.
    destruct (split_by e V HV) as (d & r & -> & D3 & D4).
    assert (Rd : 0 <= d < 1024).
    { assert (0 <= e) by lia. split.
      - destruct (Z_lt_le_dec d 0); [|lia]. exfalso. assert (V * d <= V * -1) by (apply Z.mul_le_mono_nonneg_l; lia). lia.
      - destruct (Z_lt_le_dec d 1024); [lia|]. exfalso. assert (V * 1024 <= V * d) by (apply Z.mul_le_mono_nonneg_l; lia). lia. }
    exists d. rewrite w32_id by lia. split; [apply Z.mod_small; lia|]. split; [exact Rd|]. split.
    - replace (d * (1024 * V)) with (1024 * (V * d)) by ring. lia.
    - intros V1. rewrite V1 in *. lia. }
  destruct Q as (d & MD & Rd & D1 & D2).
  destruct (subnormal_result x y d Rd) as (Br & Sr & Er & _ & Fr & Mr). set (r := product_sign x y * 2 ^ 15 + d) in *.
  exists r. split; [|split; [exact Br|split; [exact Er|split; [exact Sr|split]]]].
  - rewrite halfMul_fields by auto. replace (hexp x =? 0) with false by lia. unfold mul_all. f_equal.
    replace (hexp x =? 31) with false by lia. rewrite Ey. cbn [andb orb negb Z.eqb]. rewrite MD. apply cs_lor. lia.
  - unfold half_units. rewrite Sr, Mr. rewrite U. destruct (product_sign x y =? 0).
    + replace (d * (1024 * V * G) - t * G) with ((d * (1024 * V) - t) * G) by ring. rewrite Z.abs_mul, (Z.abs_eq G) by lia. apply Z.mul_lt_mono_pos_r; [auto|lia].
    + replace (- d * (1024 * V * G) - - (t * G)) with (- ((d * (1024 * V) - t) * G)) by ring. rewrite Z.abs_opp, Z.abs_mul, (Z.abs_eq G) by lia. apply Z.mul_lt_mono_pos_r; [auto|lia].
  - intros L. assert (V1 : V = 1) by (unfold V, k; rewrite L; reflexivity). destruct (D2 V1) as (K1 & K2). rewrite V1 in U. rewrite <- Sr.
    apply (nearest_away (2 ^ 24) r (t * G) d 0); auto; try lia.
Qed.

(** Special values. *)
Lemma halfMul_inf j x y : bits16 x -> bits16 y -> half_inf x -> ~ half_zero y -> halfMul (Some j) x y = Ok (product_sign x y * 2 ^ 15 + 0x7c00).
Proof.
  intros Bx By (E & M) NZ. rewrite halfMul_fields by auto. rewrite E, M. cbn [Z.eqb]. unfold mul_all, half_zero in *. f_equal.
  replace ((hexp y =? 0) && (hfrac y =? 0)) with false by lia. cbn [Z.eqb Pos.eqb andb orb negb]. rewrite andb_false_r. apply cs_lor. lia.
Qed.
Lemma halfMul_nan j x y : bits16 x -> bits16 y -> half_nan x -> halfMul (Some j) x y = Ok (product_sign x y * 2 ^ 15 + 0x7c00).
Proof.
  intros Bx By (E & M). rewrite halfMul_fields by auto. rewrite E. cbn [Z.eqb]. unfold mul_all. f_equal.
  replace (hfrac x =? 0) with false by lia. cbn [Z.eqb Pos.eqb andb orb negb]. rewrite andb_false_r. apply cs_lor. lia.
Qed.
Lemma halfMul_inf_zero j x y : bits16 x -> bits16 y -> half_inf x -> half_zero y -> halfMul (Some j) x y = Ok 0xfe00.
Proof. intros Bx By (E & M) (E2 & M2). rewrite halfMul_fields by auto. rewrite E, M, E2, M2. reflexivity. Qed.
Lemma halfMul_zero j x y : bits16 x -> bits16 y -> half_finite x -> half_zero y -> (forall s, j 0 s = 0) -> halfMul (Some j) x y = Ok (product_sign x y * 2 ^ 15).
Proof.
  intros Bx By F (E & M) J. destruct (hpack_of x Bx) as ((_ & Rex & Rmx) & _). unfold half_finite in F.
  assert (DZ : forall ea ma, mul_denorm j ea ma 0 = 0).
  { intros ea ma. unfold mul_denorm. rewrite Z.mul_0_r. change ((0 + 0 mod 1024) / 1024) with 0. unfold shrv. destruct (w32 (15 - ea) <? 32); [rewrite Z.shiftr_0_l|rewrite J]; reflexivity. }
  rewrite halfMul_fields by auto. rewrite E, M. f_equal. destruct (hexp x =? 0) eqn:E0.
  - unfold mul_all. rewrite E0. replace (hexp x) with 0 by lia. cbn [Z.eqb andb negb]. rewrite mul_denorm_zero by lia. rewrite cs_lor by lia. lia.
  - unfold mul_all. replace (hexp x =? 31) with false by lia. cbn [Z.eqb andb negb]. rewrite DZ. rewrite cs_lor by lia. lia.
Qed.
Lemma halfMul_subnormals j x y : bits16 x -> bits16 y -> hexp x = 0 -> hexp y = 0 -> halfMul (Some j) x y = Ok (product_sign x y * 2 ^ 15).
Proof.
  intros Bx By E E2. destruct (hpack_of x Bx) as ((_ & Rex & Rmx) & _), (hpack_of y By) as ((_ & Rey & Rmy) & _).
  rewrite halfMul_fields by auto. rewrite E, E2. f_equal. unfold mul_all. cbn [Z.eqb andb negb]. rewrite mul_denorm_zero by lia. rewrite cs_lor by lia. lia.
Qed.
Lemma halfMul_by_one j x : bits16 x -> ~ half_nan x -> halfMul (Some j) x 0x3c00 = Ok x /\ halfMul (Some j) 0x3c00 x = Ok x.
Proof.
  intros Bx NN. assert (BO : bits16 0x3c00) by (unfold bits16; lia). rewrite (halfMul_commutes j 0x3c00 x BO Bx). assert (G : halfMul (Some j) x 0x3c00 = Ok x); [|auto].
  destruct (hpack_of x Bx) as ((Rs & Re & Rm) & Ex).
  assert (S1 : product_sign x 0x3c00 = hsign x) by (unfold product_sign; change (hsign 0x3c00) with 0; destruct (hsign x =? 0) eqn:E; lia).
  destruct (Z.eq_dec (hexp x) 31) as [E|E].
  - unfold half_nan in NN. rewrite halfMul_inf; auto; [|unfold half_inf; lia|unfold half_zero; change (hexp 0x3c00) with 15; lia]. rewrite S1. f_equal. rewrite <- Ex at 2. unfold hpack. rewrite E. lia.
  - destruct (Z.eq_dec (hexp x) 0) as [E0|E0].
    + rewrite halfMul_fields by auto. rewrite E0. cbn [Z.eqb]. change (hexp 0x3c00) with 15. change (hfrac 0x3c00) with 0. unfold mul_all. cbn [Z.eqb Pos.eqb andb negb].
      replace (mul_denorm j 15 0 (hfrac x)) with (hfrac x). { rewrite cs_lor by lia. rewrite S1. f_equal. rewrite <- Ex at 3. unfold hpack. rewrite E0. lia. }
      unfold mul_denorm. change (1024 + 0) with 1024. rewrite (Z.mul_comm 1024), Z.mod_mul, Z.add_0_r, Z.div_mul by lia. unfold shrv. change (w32 (15 - 15)) with 0. cbn [Z.ltb]. change (0 <? 32) with true. cbv iota. rewrite Z.shiftr_0_r, w32_id, Z.mod_small by lia. reflexivity.
    + assert (NX : half_normal x) by (unfold half_normal; lia). exact (proj1 (halfMul_one j x Bx NX)).
Qed.
