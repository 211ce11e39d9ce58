(** halfMul on normal numbers. *)
From Verif Require Import Base BaseProofs HalfModel HalfSpec HalfBits HalfConvProofs HalfProofs HalfAddProofs.
From Coq Require Import ZifyNat ZifyN ZifyBool.
Ltac Zify.zify_post_hook ::= idtac.
Local Open Scope Z_scope.

Lemma land_bit5 c : 0 <= c < 64 -> Z.land c 32 = if 32 <=? c then 32 else 0.
Proof. intros. change 32 with (2 ^ 5). rewrite land_bit by lia. rewrite testbit_high by (cbn [Z.add]; lia). reflexivity. Qed.
Lemma shr32_any j a s : exists D, shr32 (Some j) a s = Ok D /\ 0 <= D < 2 ^ 32.
Proof. unfold shr32. destruct (s <? 32); cbn [omap bind bad_shift]; eexists; (split; [reflexivity|]; apply w32_range). Qed.

Definition mul_e (E p : Z) : Z := if 2 ^ 21 <=? p then E + 1 else E.
Definition mul_q (p : Z) : Z := if 2 ^ 21 <=? p then p / 2 else p / 2 * 2.
Definition mul_m (p : Z) : Z := (mul_q p + mul_q p mod 1024) / 1024 mod 1024.

Lemma halfMul_eq j sx ex mx sy ey my : hfields sx ex mx -> hfields sy ey my -> 1 <= ex <= 30 -> 1 <= ey <= 30 -> 16 <= ex + ey ->
  let p := (1024 + mx) * (1024 + my) in let E := ex + ey - 15 in
  halfMul (Some j) (hpack sx ex mx) (hpack sy ey my) =
    Ok ((if sx =? sy then 0 else 2 ^ 15) + (if 32 <=? mul_e E p then 31 * 2 ^ 10 else mul_e E p * 2 ^ 10 + mul_m p)).
Proof.
  intros Fx Fy Hex Hey HE p E. pose proof Fx as (Fxs & Fxe & Fxm). pose proof Fy as (Fys & Fye & Fym).
  destruct (hpack_fields _ _ _ Fx) as (Bx & _), (hpack_fields _ _ _ Fy) as (By & _). unfold bits16 in Bx, By.
  assert (Rp : 2 ^ 20 <= p < 2 ^ 22). { unfold p. change (2 ^ 20) with (1024 * 1024). change (2 ^ 22) with (2048 * 2048). nia. }
  assert (RE : 1 <= E <= 45) by lia.
  set (cs := if sx =? sy then 0 else 2 ^ 15). assert (Rcs : cs = 0 \/ cs = 2 ^ 15) by (unfold cs; destruct (sx =? sy); auto).
  un halfMul.
  st (sx * 2 ^ 15). { rewrite h_land_s by auto. wid; lia. }
  st (sy * 2 ^ 15). { rewrite h_land_s by auto. wid; lia. }
  st cs. { unfold cs. assert (sx = 0 \/ sx = 1) as [-> | ->] by lia; assert (sy = 0 \/ sy = 1) as [-> | ->] by lia; reflexivity. }
  st (ex * 2 ^ 10). { rewrite h_land_e by auto. wid; lia. }
  sp (fun t => msb32 t false) T1. { eapply msb32_if; [apply msb32_small; lia|lia]. }
  st (hpack sx ex mx). { rewrite (sels32_eq _ _ _ _ T1); [reflexivity|lia|lia]. }
  st (hpack sy ey my). { rewrite (sels32_eq _ _ _ _ T1); [reflexivity|lia|lia]. }
  st (ex * 2 ^ 10). { rewrite h_land_e by auto. wid; lia. }
  st (ey * 2 ^ 10). { rewrite h_land_e by auto. wid; lia. }
  st mx. { rewrite h_land_m by auto. wid; lia. }
  st my. { rewrite h_land_m by auto. wid; lia. }
  st ex. { sh. rewrite Z.div_mul by lia. wid; lia. }
  st ey. { sh. rewrite Z.div_mul by lia. wid; lia. }
  st (1024 + mx). { change 1024 with (1 * 2 ^ 10) at 1. rewrite lor_add' by lia. wid; lia. }
  st (1024 + my). { change 1024 with (1 * 2 ^ 10) at 1. rewrite lor_add' by lia. wid; lia. }
  st p. { fold p. wid; lia. }
  sp (fun _ : Z => True) U1. { exact I. }
  sp (fun _ : Z => True) U2. { exact I. }
  sp (fun _ : Z => True) U3. { exact I. }
  sp (fun _ : Z => True) U4. { exact I. }
  sp (fun _ : Z => True) U5. { exact I. }
  match goal with |- bind (shr32 (Some j) ?a ?s) _ = _ => destruct (shr32_any j a s) as (D1 & HD1 & RD1) end.
  sd D1. { exact HD1. }
  sp (fun t => 0 <= t < 2 ^ 32) U6. { apply w32_range. }
  st (ex + ey). { wid; lia. }
  st E. { fold E. wid; lia. }
  st 0. { apply (asr31_eq E false). split; [lia|]. rewrite testbit_high by (cbn [Z.add]; lia). lia. }
  sp (fun _ : Z => True) U7. { exact I. }
  sp (fun _ : Z => True) U8. { exact I. }
  match goal with |- bind (shr32 (Some j) ?a ?s) _ = _ => destruct (shr32_any j a s) as (D2 & HD2 & RD2) end.
  sd D2. { exact HD2. }
  st E. { change (Z.lnot 0) with (-1). rewrite Z.land_m1_r. wid; lia. }
  st p. { apply (selb32_eq 0 false); auto; lia. }
  st (if 32 <=? E then 32 else 0). { rewrite land_bit5 by lia. destruct (32 <=? E); reflexivity. }
  sp (fun t => msb32 t (32 <=? E)) Tmo. { destruct (32 <=? E); split; try reflexivity; vm_compute; auto; split; congruence. }
  st (E + 1). { wid; lia. }
  assert (Rh : 2 ^ 19 <= p / 2 < 2 ^ 21). { split; [apply Z.div_le_lower_bound; lia|apply Z.div_lt_upper_bound; lia]. }
  assert (Hh : (2 ^ 20 <=? p / 2) = (2 ^ 21 <=? p)).
  { pose proof (Z.div_mod p 2 ltac:(lia)). pose proof (Z.mod_pos_bound p 2 ltac:(lia)). lia. }
  st (p / 2). { sh. change (2 ^ 1) with 2. wid; lia. }
  st (if 2 ^ 21 <=? p then 2 ^ 20 else 0).
  { change 1048576 with (2 ^ 20). rewrite land_bit by lia. rewrite testbit_high by (cbn [Z.add]; lia). rewrite Hh. destruct (2 ^ 21 <=? p); reflexivity. }
  sp (fun t => msb32 t (negb (2 ^ 21 <=? p))) Tnh. { destruct (2 ^ 21 <=? p); eapply msb32_if; try (apply msb32_small; lia); lia. }
  st (p / 2 / 2 ^ 5).
  { sh. rewrite w32_id; [reflexivity|]. split; [apply Z.div_pos; lia|]. apply Z.div_lt_upper_bound; lia. }
  assert (Rl : 2 ^ 14 <= p / 2 / 2 ^ 5 < 2 ^ 16). { split; [apply Z.div_le_lower_bound; lia|apply Z.div_lt_upper_bound; lia]. }
  set (n := if 2 ^ 21 <=? p then 0 else 1).
  st n.
  { rewrite w16_id by lia. unfold n. rewrite <- Hh. destruct (2 ^ 20 <=? p / 2) eqn:Eh.
    - apply (cntlz16_pos _ 15); [lia|]. split; [apply Z.div_le_lower_bound; lia|cbn [Z.add]; lia].
    - apply (cntlz16_pos _ 14); [lia|]. split; [lia|apply Z.div_lt_upper_bound; cbn [Z.add]; lia]. }
  assert (Rn : 0 <= n <= 1) by (unfold n; destruct (2 ^ 21 <=? p); lia).
  sp (fun t => msb32 t true) Tnu. { eapply msb32_if; [apply msb32_small; lia|lia]. }
  sp (fun t => msb32 t false) Thu. { apply (msb32_lnot _ true). auto. }
  st 0. { apply (asr31_eq _ false Thu). }
  st 0. { sh. change (2 ^ 1) with 2. rewrite Z.div_small by lia. reflexivity. }
  sd (p / 2). { rewrite shl32_in by lia. change (2 ^ 0) with 1. rewrite Z.mul_1_r. f_equal. wid; lia. }
  sd (p / 2 * 2 ^ n). { rewrite shl32_in by lia. f_equal. unfold n. destruct (2 ^ 21 <=? p); [change (2 ^ 0) with 1|change (2 ^ 1) with 2]; wid; lia. }
  st (E + 1 - n). { wid; lia. }
  st (E + 1 - n). { change (Z.lnot 0) with (-1). rewrite Z.land_m1_r. wid; lia. }
  assert (R2 : 0 <= p / 2 * 2 ^ n < 2 ^ 32). { unfold n. destruct (2 ^ 21 <=? p); [change (2 ^ 0) with 1|change (2 ^ 1) with 2]; lia. }
  st (p / 2 * 2 ^ n). { rewrite (sels32_eq _ _ _ _ Thu); [reflexivity|lia|lia]. }
  set (q := mul_q p). set (ce := mul_e E p).
  assert (Rq : 2 ^ 20 - 1 <= q < 2 ^ 21). { unfold q, mul_q. pose proof (Z.div_mod p 2 ltac:(lia)). pose proof (Z.mod_pos_bound p 2 ltac:(lia)). destruct (2 ^ 21 <=? p) eqn:E1; lia. }
  assert (Rce : 1 <= ce <= 46). { unfold ce, mul_e. destruct (2 ^ 21 <=? p); lia. }
  st q. { rewrite (sels32_eq _ _ _ _ Tnh); [|lia|lia]. unfold q, mul_q, n. destruct (2 ^ 21 <=? p); reflexivity. }
  st ce. { rewrite (sels32_eq _ _ _ _ Tnh); [|lia|lia]. unfold ce, mul_e, n. destruct (2 ^ 21 <=? p); cbn [negb]; lia. }
  pose proof (Z.mod_pos_bound q 1024 ltac:(lia)) as Rr.
  st (q mod 1024). { change 1023 with (2 ^ 10 - 1). rewrite land_low by lia. change (2 ^ 10) with 1024. wid; lia. }
  st (q + q mod 1024). { wid; lia. }
  st (if 32 <=? ce then 32 else 0). { rewrite land_bit5 by lia. destruct (32 <=? ce); reflexivity. }
  sp (fun t => msb32 t (32 <=? ce)) Tro. { destruct (32 <=? ce); split; try reflexivity; vm_compute; auto; split; congruence. }
  assert (Ri : 0 <= (q + q mod 1024) / 1024 < 2 ^ 12). { split; [apply Z.div_pos; lia|apply Z.div_lt_upper_bound; lia]. }
  st ((q + q mod 1024) / 1024). { sh. change (2 ^ 10) with 1024. wid; lia. }
  set (cm := mul_m p). assert (Rcm : 0 <= cm < 1024) by (apply Z.mod_pos_bound; lia).
  st cm. { change 1023 with (2 ^ 10 - 1). rewrite land_low by lia. unfold cm, mul_m. fold q. change (2 ^ 10) with 1024. apply w32_id. pose proof (Z.mod_pos_bound ((q + q mod 1024) / 1024) 1024 ltac:(lia)). lia. }
  st (ce * 2 ^ 10). { sh. wid; lia. }
  st (ce mod 32 * 2 ^ 10).
  { change 31744 with ((2 ^ 5 - 1) * 2 ^ 10). rewrite land_field by lia. rewrite Z.div_mul by lia. change (2 ^ 5) with 32. pose proof (Z.mod_pos_bound ce 32 ltac:(lia)). wid; lia. }
  pose proof (Z.mod_pos_bound ce 32 ltac:(lia)) as Rc32.
  sp (fun t => 0 <= t < 2 ^ 32) U10. { apply w32_range. }
  sp (fun t => 0 <= t < 2 ^ 32) U11. { apply w32_range. }
  sp (fun t => 0 <= t < 2 ^ 32) U12. { apply w32_range. }
  sp (fun t => 0 <= t < 2 ^ 32) U13. { apply w32_range. }
  st (ce mod 32 * 2 ^ 10 + cm). { rewrite lor_add by lia. wid; lia. }
  sp (fun t => msb32 t false) Taf. { eapply msb32_if; [apply msb32_small; lia|lia]. }
  sp (fun t => msb32 t false) Tbf. { eapply msb32_if; [apply msb32_small; lia|lia]. }
  sp (fun t => msb32 t false) Tae. { eapply msb32_if; [apply msb32_small; lia|lia]. }
  sp (fun t => msb32 t (mx =? 0)) Tam. { eapply msb32_if; [apply msb32_small; lia|lia]. }
  sp (fun t => msb32 t false) Tbe. { eapply msb32_if; [apply msb32_small; lia|lia]. }
  sp (fun t => msb32 t (my =? 0)) Tbm. { eapply msb32_if; [apply msb32_small; lia|lia]. }
  sp (fun t => msb32 t false) Tbz. { eapply msb32_if; [apply msb32_land; eauto|reflexivity]. }
  sp (fun t => msb32 t false) Taz. { eapply msb32_if; [apply msb32_land; eauto|reflexivity]. }
  sp (fun t => msb32 t false) Tna. { eapply msb32_if; [apply msb32_landn; eauto|reflexivity]. }
  sp (fun t => msb32 t false) Tnb. { eapply msb32_if; [apply msb32_landn; eauto|reflexivity]. }
  sp (fun t => msb32 t false) Tn. { eapply msb32_if; [apply msb32_lor; eauto|reflexivity]. }
  sp (fun t => msb32 t false) Tdn. { eapply msb32_if; [apply msb32_landn; eauto|reflexivity]. }
  sp (fun t => msb32 t false) Tai. { eapply msb32_if; [apply msb32_land; eauto|reflexivity]. }
  sp (fun t => msb32 t false) Tsn. { eapply msb32_if; [apply msb32_land; eauto|reflexivity]. }
  sp (fun t => msb32 t false) Tma. { eapply msb32_if; [apply msb32_land; eauto|reflexivity]. }
  sp (fun t => msb32 t false) Tmb. { eapply msb32_if; [apply msb32_land; eauto|reflexivity]. }
  sp (fun t => msb32 t false) Tm. { eapply msb32_if; [apply msb32_lor; eauto|reflexivity]. }
  sp (fun t => msb32 t false) Ti. { eapply msb32_if; [apply msb32_lor; eauto|reflexivity]. }
  assert (OV : (32 <=? ce) || (32 <=? E) = (32 <=? ce)). { unfold ce, mul_e. destruct (2 ^ 21 <=? p); lia. }
  sp (fun t => msb32 t (32 <=? ce)) To. { eapply msb32_if; [apply msb32_lor; eauto|auto]. }
  set (em := if 32 <=? ce then 31 * 2 ^ 10 else ce * 2 ^ 10 + cm).
  assert (Rem : 0 <= em < 2 ^ 15) by (unfold em; destruct (32 <=? ce) eqn:E1; lia).
  st em. { rewrite (sels32_eq _ _ _ _ To); [|lia|lia]. unfold em. destruct (32 <=? ce) eqn:E1; [reflexivity|]. rewrite (Z.mod_small ce) by lia. reflexivity. }
  assert (CS : w32 (Z.lor cs em) = cs + em). { destruct Rcs as [-> | ->]; [rewrite Z.lor_0_l; wid; lia|]. change (2 ^ 15) with (1 * 2 ^ 15). rewrite lor_add by lia. wid; lia. }
  st (cs + em). { exact CS. }
  st (cs + em). { rewrite (sels32_eq _ _ _ _ Tbz); [reflexivity|lia|lia]. }
  st (cs + em). { rewrite (sels32_eq _ _ _ _ Tn); [reflexivity|lia|lia]. }
  st (cs + em). { rewrite (sels32_eq _ _ _ _ Tm); [reflexivity|lia|lia]. }
  st (cs + em). { rewrite (sels32_eq _ _ _ _ Ti); [reflexivity|lia|lia]. }
  st (cs + em). { rewrite (sels32_eq _ _ _ _ Tdn); [reflexivity|lia|lia]. }
  st (cs + em). { rewrite (sels32_eq _ _ _ _ Tsn); [reflexivity|lia|lia]. }
  rewrite w16_id by lia. reflexivity.
Qed.

Lemma mul_round p : 2 ^ 20 <= p <= 2047 * 2047 -> ~ (2 ^ 21 - 512 <= p < 2 ^ 21) ->
  let N := (mul_q p + mul_q p mod 1024) / 1024 in let w := if 2 ^ 21 <=? p then 2 ^ 11 else 2 ^ 10 in
  1024 <= N <= 2047 /\ mul_m p = N - 1024 /\ 2 * (p - N * w) < w /\ 2 * (N * w - p) <= w.
Proof.
  intros Hp Hx N w. pose proof (Z.div_mod p 2 ltac:(lia)) as D. pose proof (Z.mod_pos_bound p 2 ltac:(lia)) as R. set (h := p / 2) in *. set (pr := p mod 2) in *.
  set (q := mul_q p) in *. assert (Eq : q = if 2 ^ 21 <=? p then h else h * 2) by reflexivity.
  pose proof (Z.div_mod q 1024 ltac:(lia)) as Dq. pose proof (Z.mod_pos_bound q 1024 ltac:(lia)) as Rq. set (t := q / 1024) in *. set (r := q mod 1024) in *.
  assert (EN : N = if r <? 512 then t else t + 1).
  { unfold N. destruct (r <? 512) eqn:E; [apply div_unique_small with (2 * r); lia|apply div_unique_small with (2 * r - 1024); lia]. }
  assert (K : 1024 <= N <= 2047 /\ 2 * (p - N * w) < w /\ 2 * (N * w - p) <= w).
  { unfold w. clearbody N q t r h pr. destruct (2 ^ 21 <=? p) eqn:E, (r <? 512) eqn:E2; lia. }
  split; [apply K|]. split; [|apply K]. unfold mul_m. fold q r. fold N. apply mod_unique_small with 1; lia.
Qed.

Lemma halfMul_nearest j x y : bits16 x -> bits16 y -> half_normal x -> half_normal y -> 16 <= hexp x + hexp y ->
  Z.abs (half_units x * half_units y) < overflow_threshold * 2 ^ 24 ->
  ~ (2 ^ 21 - 512 <= (1024 + hfrac x) * (1024 + hfrac y) < 2 ^ 21) ->
  exists r, halfMul (Some j) x y = Ok r /\ nearest (2 ^ 24) r (half_units x * half_units y) /\ ties_away (2 ^ 24) r (half_units x * half_units y).
Proof.
  intros Bx By Nx Ny HE Hov Hc. destruct (hpack_of x Bx) as (HFx & Ex), (hpack_of y By) as (HFy & Ey). unfold half_normal in *.
  assert (Ux : half_units x = (if hsign x =? 0 then 1 else -1) * ((1024 + hfrac x) * 2 ^ (hexp x - 1))).
  { unfold half_units, half_magnitude. replace (hexp x =? 0) with false by lia. change (2 ^ 10) with 1024. destruct (hsign x =? 0); lia. }
  assert (Uy : half_units y = (if hsign y =? 0 then 1 else -1) * ((1024 + hfrac y) * 2 ^ (hexp y - 1))).
  { unfold half_units, half_magnitude. replace (hexp y =? 0) with false by lia. change (2 ^ 10) with 1024. destruct (hsign y =? 0); lia. }
  pose proof (halfMul_eq j _ _ _ _ _ _ HFx HFy Nx Ny HE) as EQ. cbv zeta in EQ. rewrite Ex, Ey in EQ.
  pose proof HFx as (Rsx & Rex & Rmx). pose proof HFy as (Rsy & Rey & Rmy).
  set (sx := hsign x) in *. set (ex := hexp x) in *. set (mx := hfrac x) in *. set (sy := hsign y) in *. set (ey := hexp y) in *. set (my := hfrac y) in *.
  set (p := (1024 + mx) * (1024 + my)) in *. set (E := ex + ey - 15) in *.
  assert (Rp : 2 ^ 20 <= p <= 2047 * 2047). { unfold p. change (2 ^ 20) with (1024 * 1024). nia. }
  set (sg := if sx =? sy then 0 else 1).
  assert (PR : half_units x * half_units y = if sg =? 0 then p * 2 ^ (E + 13) else - (p * 2 ^ (E + 13))).
  { rewrite Ux, Uy. replace (E + 13) with ((ex - 1) + (ey - 1)) by lia. rewrite Z.pow_add_r by lia. unfold p, sg.
    assert (sx = 0 \/ sx = 1) as [Q1|Q1] by lia; assert (sy = 0 \/ sy = 1) as [Q2|Q2] by lia; rewrite Q1, Q2; repeat match goal with |- context [?a =? ?b] => let v := eval vm_compute in (a =? b) in change (a =? b) with v; cbv iota end; ring. }
  assert (AB : Z.abs (half_units x * half_units y) = p * 2 ^ (E + 13)).
  { rewrite PR. pose proof (pow_pos (E + 13) ltac:(lia)). assert (0 < p * 2 ^ (E + 13)) by (apply Z.mul_pos_pos; lia). destruct (sg =? 0); lia. }
  rewrite AB in Hov. rewrite PR.
  destruct (mul_round p Rp Hc) as (RN & EM & H1 & H2). set (N := (mul_q p + mul_q p mod 1024) / 1024) in *.
  clear Ux Uy PR AB Bx By Ex Ey. set (ce := mul_e E p) in *.
  assert (Hce : 1 <= ce <= 30).
  { unfold ce, mul_e. split; [destruct (2 ^ 21 <=? p); lia|]. unfold overflow_threshold in Hov.
    assert (B64 : forall k, k + (E + 13) >= 64 -> 2 ^ k <= p -> 0 <= k -> False).
    { intros k Hk HP K0. assert (2 ^ 64 <= p * 2 ^ (E + 13)); [|change (2 ^ 64) with (4096 * 2 ^ 28 * 2 ^ 24) in *; lia].
      apply Z.le_trans with (2 ^ k * 2 ^ (E + 13)); [rewrite <- Z.pow_add_r by lia; apply Z.pow_le_mono_r; lia|]. apply Z.mul_le_mono_nonneg_r; [|auto]. apply Z.pow_nonneg. lia. }
    destruct (2 ^ 21 <=? p) eqn:E1; [specialize (B64 21)|specialize (B64 20)]; lia. }
  replace (32 <=? ce) with false in EQ by lia. rewrite EM in EQ.
  assert (HF : hfields sg ce (N - 1024)). { unfold hfields, sg. destruct (sx =? sy); lia. }
  destruct (hpack_fields _ _ _ HF) as (B16 & P1 & P2 & P3).
  exists (hpack sg ce (N - 1024)). split.
  { rewrite EQ. f_equal. unfold hpack, sg. destruct (sx =? sy); lia. }
  assert (Fin : half_finite (hpack sg ce (N - 1024))) by (unfold half_finite; rewrite P2; lia).
  assert (HM : half_magnitude (hpack sg ce (N - 1024)) = N * 2 ^ (ce - 1)).
  { unfold half_magnitude. rewrite P2, P3. replace (ce =? 0) with false by lia. f_equal. lia. }
  pose proof (nearest_away (2 ^ 24) (hpack sg ce (N - 1024)) (p * 2 ^ (E + 13)) N (ce - 1)) as NA. rewrite P1 in NA.
  set (F := 2 ^ (E + 13)) in *. assert (HF0 : 0 < F) by (apply pow_pos; lia).
  set (w := if 2 ^ 21 <=? p then 2 ^ 11 else 2 ^ 10) in *.
  assert (WK : 2 ^ (ce - 1) * 2 ^ 24 = w * F).
  { unfold ce, mul_e, w, F. destruct (2 ^ 21 <=? p); rewrite <- !Z.pow_add_r by lia; f_equal; lia. }
  apply NA; auto; try lia.
  - right. rewrite Z.pow_add_r by lia. replace (2 ^ (ce - 1) * 2 ^ 10 * 2 ^ 24) with (2 ^ (ce - 1) * 2 ^ 24 * 2 ^ 10) by ring. rewrite WK.
    replace (w * F * 2 ^ 10) with (w * 2 ^ 10 * F) by ring. apply Z.mul_le_mono_nonneg_r; [lia|]. unfold w. destruct (2 ^ 21 <=? p) eqn:E1; lia.
  - rewrite <- Z.mul_assoc, WK. replace (2 * (p * F - N * (w * F))) with (2 * (p - N * w) * F) by ring. apply Z.mul_lt_mono_pos_r; auto.
  - rewrite <- Z.mul_assoc, WK. replace (2 * (N * (w * F) - p * F)) with (2 * (N * w - p) * F) by ring. apply Z.mul_le_mono_nonneg_r; [lia|auto].
Qed.

Lemma halfMul_comm j x y : bits16 x -> bits16 y -> half_normal x -> half_normal y -> 16 <= hexp x + hexp y -> halfMul (Some j) x y = halfMul (Some j) y x.
Proof.
  intros Bx By Nx Ny HE. destruct (hpack_of x Bx) as (HFx & Ex), (hpack_of y By) as (HFy & Ey). unfold half_normal in *.
  pose proof (halfMul_eq j _ _ _ _ _ _ HFx HFy Nx Ny HE) as Q1. pose proof (halfMul_eq j _ _ _ _ _ _ HFy HFx Ny Nx ltac:(lia)) as Q2. cbv zeta in Q1, Q2. rewrite Ex, Ey in Q1, Q2.
  rewrite Q1, Q2. rewrite (Z.mul_comm (1024 + hfrac y)), (Z.add_comm (hexp y)), (Z.eqb_sym (hsign y)). reflexivity.
Qed.

Lemma halfMul_one j x : bits16 x -> half_normal x -> halfMul (Some j) x 0x3c00 = Ok x /\ halfMul (Some j) 0x3c00 x = Ok x.
Proof.
  intros Bx Nx. destruct (hpack_of x Bx) as (HFx & Ex). unfold half_normal in *. pose proof HFx as (Rs & Re & Rm).
  assert (O : bits16 0x3c00 /\ 1 <= hexp 0x3c00 <= 30) by (unfold bits16; vm_compute; intuition congruence). destruct O as (BO & NO).
  rewrite (halfMul_comm j 0x3c00 x) by (auto; change (hexp 0x3c00) with 15; lia). assert (G : halfMul (Some j) x 0x3c00 = Ok x); [|auto].
  assert (H1 : hfields 0 15 0) by (unfold hfields; lia).
  pose proof (halfMul_eq j _ _ _ _ _ _ HFx H1 Nx ltac:(lia) ltac:(lia)) as Q. cbv zeta in Q. rewrite Ex in Q. change (hpack 0 15 0) with 0x3c00 in Q. rewrite Q.
  replace (hexp x + 15 - 15) with (hexp x) by lia. set (p := (1024 + hfrac x) * (1024 + 0)).
  assert (P21 : (2 ^ 21 <=? p) = false) by (unfold p; lia). unfold mul_e, mul_m, mul_q. rewrite P21. replace (32 <=? hexp x) with false by lia.
  assert (E2 : p / 2 * 2 = (1024 + hfrac x) * 1024). { unfold p. replace ((1024 + hfrac x) * (1024 + 0)) with ((1024 + hfrac x) * 512 * 2) by ring. rewrite Z.div_mul by lia. ring. }
  rewrite E2, Z.mod_mul, Z.add_0_r, Z.div_mul by lia. rewrite (mod_unique_small _ 1 (hfrac x)) by lia. f_equal. rewrite <- Ex at 4. unfold hpack. destruct (hsign x =? 0) eqn:Z0; [replace (hsign x) with 0 by lia|replace (hsign x) with 1 by lia]; lia.
Qed.
