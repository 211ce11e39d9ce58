(** Model of librapid/include/librapid/math/half.hpp: IEEE binary16 carried by a uint16_t.

    Bit patterns are integers in Z; [w16]/[w32] are the conversions to uint16_t/uint32_t that C++ applies
    when a variable of that type is initialised.  The literal constants the C++ functions name first
    (h_e_mask = 0x7c00, ...) are written in place; every other local variable keeps its name.

    A shift by 32 or more positions is undefined.  [shift_sem] says what to make of it: [None] follows the
    standard and stops with [UB]; [Some j] is a machine on which such a shift returns some value j. *)
From Verif Require Import Base.
Local Open Scope Z_scope.

Definition w16 (x : Z) : Z := x mod 2 ^ 16.
Definition w32 (x : Z) : Z := x mod 2 ^ 32.

Definition shift_sem : Type := option (Z -> Z -> Z).
Definition bad_shift (J : shift_sem) (a s : Z) : outcome Z :=
  match J with None => UB | Some j => Ok (j a s) end.
(* E1 >> E2 and E1 << E2 on uint32_t, and on uint16_t promoted to int, the result stored in the type of the
   operand (the build asks for C++23, CMakeLists.txt l.8, where << on int is modular). *)
Definition shr32 (J : shift_sem) (a s : Z) : outcome Z :=
  omap w32 (if s <? 32 then Ok (Z.shiftr a s) else bad_shift J a s).
Definition shl32 (J : shift_sem) (a s : Z) : outcome Z :=
  omap w32 (if s <? 32 then Ok (Z.shiftl a s) else bad_shift J a s).
Definition shr16 (J : shift_sem) (a s : Z) : outcome Z :=
  omap w16 (if s <? 32 then Ok (Z.shiftr a s) else bad_shift J a s).
Definition shl16 (J : shift_sem) (a s : Z) : outcome Z :=
  omap w16 (if s <? 32 then Ok (Z.shiftl a s) else bad_shift J a s).

(* (int32_t)x >> 31 and (int16_t)x >> 15, stored back in the unsigned type. *)
Definition asr31 (x : Z) : Z := w32 (Z.shiftr (if x <? 2 ^ 31 then x else x - 2 ^ 32) 31).
Definition asr15 (x : Z) : Z := w16 (Z.shiftr (if x <? 2 ^ 15 then x else x - 2 ^ 16) 15).

(* half.hpp l.31-38: uint32Sels. *)
Definition sels32 (test a b : Z) : Z :=
  let mask := asr31 test in
  let sel_a := w32 (Z.land a mask) in
  let sel_b := w32 (Z.land b (Z.lnot mask)) in
  w32 (Z.lor sel_a sel_b).
(* half.hpp l.40-46: uint32Selb. *)
Definition selb32 (mask a b : Z) : Z :=
  let sel_a := w32 (Z.land a mask) in
  let sel_b := w32 (Z.land b (Z.lnot mask)) in
  w32 (Z.lor sel_a sel_b).
(* half.hpp l.48-55: uint16Sels. *)
Definition sels16 (test a b : Z) : Z :=
  let mask := asr15 test in
  let sel_a := w16 (Z.land a mask) in
  let sel_b := w16 (Z.land b (Z.lnot mask)) in
  w16 (Z.lor sel_a sel_b).

(* half.hpp l.57-92: uint32Cntlz.  The branch taken is the #else one: LIBRAPID_GNU_CXX is defined nowhere
   (and the other branch calls a function that does not exist).  [pop32] is l.76-90 of it. *)
Definition pop32 (x9 : Z) : Z :=
  let xA := w32 (Z.lnot x9) in
  let xB := w32 (Z.shiftr xA 1) in
  let xC := w32 (Z.land xB 0x55555555) in
  let xD := w32 (xA - xC) in
  let xE := w32 (Z.land xD 0x33333333) in
  let xF := w32 (Z.shiftr xD 2) in
  let x10 := w32 (Z.land xF 0x33333333) in
  let x11 := w32 (xE + x10) in
  let x12 := w32 (Z.shiftr x11 4) in
  let x13 := w32 (x11 + x12) in
  let x14 := w32 (Z.land x13 0x0f0f0f0f) in
  let x15 := w32 (Z.shiftr x14 8) in
  let x16 := w32 (x14 + x15) in
  let x17 := w32 (Z.shiftr x16 16) in
  let x18 := w32 (x16 + x17) in
  w32 (Z.land x18 0x3f).
Definition cntlz32 (x : Z) : Z :=
  let x0 := w32 (Z.shiftr x 1) in
  let x1 := w32 (Z.lor x x0) in
  let x2 := w32 (Z.shiftr x1 2) in
  let x3 := w32 (Z.lor x1 x2) in
  let x4 := w32 (Z.shiftr x3 4) in
  let x5 := w32 (Z.lor x3 x4) in
  let x6 := w32 (Z.shiftr x5 8) in
  let x7 := w32 (Z.lor x5 x6) in
  let x8 := w32 (Z.shiftr x7 16) in
  let x9 := w32 (Z.lor x7 x8) in
  pop32 x9.

(* half.hpp l.94-122: uint16Cntlz, the #else branch; [pop16] is l.111-120 of it. *)
Definition pop16 (x7 : Z) : Z :=
  let x8 := w16 (Z.lnot x7) in
  let x9 := w16 (Z.land (Z.shiftr x8 1) 0x5555) in
  let xA := w16 (x8 - x9) in
  let xB := w16 (Z.land xA 0x3333) in
  let xC := w16 (Z.land (Z.shiftr xA 2) 0x3333) in
  let xD := w16 (xB + xC) in
  let xE := w16 (Z.shiftr xD 4) in
  let xF := w16 (Z.land (xD + xE) 0x0f0f) in
  let x10 := w16 (Z.shiftr xF 8) in
  w16 (Z.land (xF + x10) 0x001f).
Definition cntlz16 (x : Z) : Z :=
  let x0 := w16 (Z.shiftr x 1) in
  let x1 := w16 (Z.lor x x0) in
  let x2 := w16 (Z.shiftr x1 2) in
  let x3 := w16 (Z.lor x1 x2) in
  let x4 := w16 (Z.shiftr x3 4) in
  let x5 := w16 (Z.lor x3 x4) in
  let x6 := w16 (Z.shiftr x5 8) in
  let x7 := w16 (Z.lor x5 x6) in
  pop16 x7.

(* half.hpp l.124-191: floatToHalf. *)
Definition floatToHalf (J : shift_sem) (f : Z) : outcome Z :=
  let f_s := w32 (Z.land f 0x80000000) in
  let f_e := w32 (Z.land f 0x7f800000) in
  let h_s := w16 (Z.shiftr f_s 0x10) in
  let f_m := w32 (Z.land f 0x7fffff) in
  let f_e_amount := w16 (Z.shiftr f_e 0x17) in
  let f_e_half_bias := w32 (f_e_amount - 0x70) in
  let f_snan := w32 (Z.land f 0x7fc00000) in
  let f_m_round_mask := w32 (Z.land f_m 0x1000) in
  let f_m_round_offset := w32 (Z.shiftl f_m_round_mask 0x1) in
  let f_m_rounded := w32 (f_m + f_m_round_offset) in
  let f_m_denorm_sa := w32 (0x1 - f_e_half_bias) in
  let f_m_with_hidden := w32 (Z.lor f_m_rounded 0x800000) in
  do f_m_denorm <- shr32 J f_m_with_hidden f_m_denorm_sa;
  let h_m_denorm := w32 (Z.shiftr f_m_denorm 0xd) in
  let f_m_rounded_overflow := w32 (Z.land f_m_rounded 0x800000) in
  let m_nan := w32 (Z.shiftr f_m 0xd) in
  let h_em_nan := w32 (Z.lor 0x7c00 m_nan) in
  let h_e_norm_overflow_offset := w32 (f_e_half_bias + 1) in
  let h_e_norm_overflow := w32 (Z.shiftl h_e_norm_overflow_offset 0xa) in
  let h_e_norm := w32 (Z.shiftl f_e_half_bias 0xa) in
  let h_m_norm := w32 (Z.shiftr f_m_rounded 0xd) in
  let h_em_norm := w32 (Z.lor h_e_norm h_m_norm) in
  let is_h_ndenorm_msb := w32 (0x70 - f_e_amount) in
  let is_f_e_flagged_msb := w32 (0x8f - f_e_half_bias) in
  let is_h_denorm_msb := w32 (Z.lnot is_h_ndenorm_msb) in
  let is_f_m_eqz_msb := w32 (f_m - 1) in
  let is_h_nan_eqz_msb := w32 (m_nan - 1) in
  let is_f_inf_msb := w32 (Z.land is_f_e_flagged_msb is_f_m_eqz_msb) in
  let is_f_nan_underflow_msb := w32 (Z.land is_f_e_flagged_msb is_h_nan_eqz_msb) in
  let is_e_overflow_msb := w32 (0x1f - f_e_half_bias) in
  let is_h_inf_msb := w32 (Z.lor is_e_overflow_msb is_f_inf_msb) in
  let is_f_nsnan_msb := w32 (f_snan - 0x7fc00000) in
  let is_m_norm_overflow_msb := w32 (- f_m_rounded_overflow) in
  let is_f_snan_msb := w32 (Z.lnot is_f_nsnan_msb) in
  let h_em_overflow_result := sels32 is_m_norm_overflow_msb h_e_norm_overflow h_em_norm in
  let h_em_nan_result := sels32 is_f_e_flagged_msb h_em_nan h_em_overflow_result in
  let h_em_nan_underflow_result := sels32 is_f_nan_underflow_msb 0x7c01 h_em_nan_result in
  let h_em_inf_result := sels32 is_h_inf_msb 0x7c00 h_em_nan_underflow_result in
  let h_em_denorm_result := sels32 is_h_denorm_msb h_m_denorm h_em_inf_result in
  let h_em_snan_result := sels32 is_f_snan_msb 0x7e00 h_em_denorm_result in
  let h_result := w32 (Z.lor h_s h_em_snan_result) in
  Ok (w16 h_result).

(* half.hpp l.193-237: halfToFloat. *)
Definition halfToFloat (J : shift_sem) (h : Z) : outcome Z :=
  let h_e := w32 (Z.land h 0x7c00) in
  let h_m := w32 (Z.land h 0x3ff) in
  let h_s := w32 (Z.land h 0x8000) in
  let h_e_f_bias := w32 (h_e + 0x1c000) in
  let h_m_nlz := cntlz32 h_m in
  let f_s := w32 (Z.shiftl h_s 0x10) in
  let f_e := w32 (Z.shiftl h_e_f_bias 0xd) in
  let f_m := w32 (Z.shiftl h_m 0xd) in
  let f_em := w32 (Z.lor f_e f_m) in
  let h_f_m_sa := w32 (h_m_nlz - 0x8) in
  let f_e_denorm_unpacked := w32 (0x7e - h_f_m_sa) in
  do h_f_m <- shl32 J h_m h_f_m_sa;
  let f_m_denorm := w32 (Z.land h_f_m 0x7fffff) in
  let f_e_denorm := w32 (Z.shiftl f_e_denorm_unpacked 0x17) in
  let f_em_denorm := w32 (Z.lor f_e_denorm f_m_denorm) in
  let f_em_nan := w32 (Z.lor 0x7f800000 f_m) in
  let is_e_eqz_msb := w32 (h_e - 1) in
  let is_m_nez_msb := w32 (- h_m) in
  let is_e_flagged_msb := w32 (0x7bff - h_e) in
  let is_zero_msb := w32 (Z.land is_e_eqz_msb (Z.lnot is_m_nez_msb)) in
  let is_inf_msb := w32 (Z.land is_e_flagged_msb (Z.lnot is_m_nez_msb)) in
  let is_denorm_msb := w32 (Z.land is_m_nez_msb is_e_eqz_msb) in
  let is_nan_msb := w32 (Z.land is_e_flagged_msb is_m_nez_msb) in
  let is_zero := asr31 is_zero_msb in
  let f_zero_result := w32 (Z.land f_em (Z.lnot is_zero)) in
  let f_denorm_result := sels32 is_denorm_msb f_em_denorm f_zero_result in
  let f_inf_result := sels32 is_inf_msb 0x7f800000 f_denorm_result in
  let f_nan_result := sels32 is_nan_msb f_em_nan f_inf_result in
  let f_result := w32 (Z.lor f_s f_nan_result) in
  Ok (f_result).

(* half.hpp l.239-353: halfAdd. *)
Definition halfAdd (J : shift_sem) (x y : Z) : outcome Z :=
  let h_grs_round_carry := w16 (Z.shiftl 0x1 0x3) in
  let h_grs_round_mask := w16 (h_grs_round_carry - 0x1) in
  let x_e := w16 (Z.land x 0x7c00) in
  let y_e := w16 (Z.land y 0x7c00) in
  let is_y_e_larger_msb := w16 (x_e - y_e) in
  let a := sels16 is_y_e_larger_msb y x in
  let a_s := w16 (Z.land a 0x8000) in
  let a_e := w16 (Z.land a 0x7c00) in
  let a_m_no_hidden_bit := w16 (Z.land a 0x3ff) in
  let a_em_no_hidden_bit := w16 (Z.lor a_e a_m_no_hidden_bit) in
  let b := sels16 is_y_e_larger_msb x y in
  let b_s := w16 (Z.land b 0x8000) in
  let b_e := w16 (Z.land b 0x7c00) in
  let b_m_no_hidden_bit := w16 (Z.land b 0x3ff) in
  let b_em_no_hidden_bit := w16 (Z.lor b_e b_m_no_hidden_bit) in
  let is_diff_sign_msb := w16 (Z.lxor a_s b_s) in
  let is_a_inf_msb := w16 (0x7bff - a_em_no_hidden_bit) in
  let is_b_inf_msb := w16 (0x7bff - b_em_no_hidden_bit) in
  let is_undenorm_msb := w16 (a_e - 1) in
  let is_undenorm := asr15 is_undenorm_msb in
  let is_both_inf_msb := w16 (Z.land is_a_inf_msb is_b_inf_msb) in
  let is_invalid_inf_op_msb := w16 (Z.land is_both_inf_msb b_s) in
  let is_a_e_nez_msb := w16 (- a_e) in
  let is_b_e_nez_msb := w16 (- b_e) in
  let is_a_e_nez := asr15 is_a_e_nez_msb in
  let is_b_e_nez := asr15 is_b_e_nez_msb in
  let a_m_hidden_bit := w16 (Z.land is_a_e_nez 0x400) in
  let b_m_hidden_bit := w16 (Z.land is_b_e_nez 0x400) in
  let a_m_no_grs := w16 (Z.lor a_m_no_hidden_bit a_m_hidden_bit) in
  let b_m_no_grs := w16 (Z.lor b_m_no_hidden_bit b_m_hidden_bit) in
  let diff_e := w16 (a_e - b_e) in
  let a_e_unbias := w16 (a_e - 0xe) in
  let a_m := w16 (Z.shiftl a_m_no_grs 0x3) in
  let a_e_biased := w16 (Z.shiftr a_e 0xa) in
  let m_sa_unbias := w16 (Z.shiftr a_e_unbias 0xa) in
  let m_sa_default := w16 (Z.shiftr diff_e 0xa) in
  let m_sa_unbias_mask := w16 (Z.land is_a_e_nez_msb (Z.lnot is_b_e_nez_msb)) in
  let m_sa := sels16 m_sa_unbias_mask m_sa_unbias m_sa_default in
  let b_m_no_sticky := w16 (Z.shiftl b_m_no_grs 0x3) in
  do sh_m <- shr16 J b_m_no_sticky m_sa;
  do sticky_overflow <- shl16 J 0x1 m_sa;
  let sticky_mask := w16 (sticky_overflow - 1) in
  let sticky_collect := w16 (Z.land b_m_no_sticky sticky_mask) in
  let is_sticky_set_msb := w16 (- sticky_collect) in
  let sticky := w16 (Z.shiftr is_sticky_set_msb 0xf) in
  let b_m := w16 (Z.lor sh_m sticky) in
  let is_c_m_ab_pos_msb := w16 (b_m - a_m) in
  let c_inf := w16 (Z.lor a_s 0x7c00) in
  let c_m_sum := w16 (a_m + b_m) in
  let c_m_diff_ab := w16 (a_m - b_m) in
  let c_m_diff_ba := w16 (b_m - a_m) in
  let c_m_smag_diff := sels16 is_c_m_ab_pos_msb c_m_diff_ab c_m_diff_ba in
  let c_s_diff := sels16 is_c_m_ab_pos_msb a_s b_s in
  let c_s := sels16 is_diff_sign_msb c_s_diff a_s in
  let c_m_smag_diff_nlz := cntlz16 c_m_smag_diff in
  let diff_norm_sa := w16 (c_m_smag_diff_nlz - 0x1) in
  let is_diff_denorm_msb := w16 (a_e_biased - diff_norm_sa) in
  let is_diff_denorm := asr15 is_diff_denorm_msb in
  let is_a_or_b_norm_msb := w16 (- a_e_biased) in
  let diff_denorm_sa := w16 (a_e_biased - 1) in
  do c_m_diff_denorm <- shl16 J c_m_smag_diff diff_denorm_sa;
  do c_m_diff_norm <- shl16 J c_m_smag_diff diff_norm_sa;
  let c_e_diff_norm := w16 (a_e_biased - diff_norm_sa) in
  let c_m_diff_ab_norm := sels16 is_diff_denorm_msb c_m_diff_denorm c_m_diff_norm in
  let c_e_diff_ab_norm := w16 (Z.land c_e_diff_norm (Z.lnot is_diff_denorm)) in
  let c_m_diff := sels16 is_a_or_b_norm_msb c_m_diff_ab_norm c_m_smag_diff in
  let c_e_diff := sels16 is_a_or_b_norm_msb c_e_diff_ab_norm a_e_biased in
  let is_diff_eqz_msb := w16 (c_m_diff - 1) in
  let is_diff_exactly_zero_msb := w16 (Z.land is_diff_sign_msb is_diff_eqz_msb) in
  let is_diff_exactly_zero := asr15 is_diff_exactly_zero_msb in
  let c_m_added := sels16 is_diff_sign_msb c_m_diff c_m_sum in
  let c_e_added := sels16 is_diff_sign_msb c_e_diff a_e_biased in
  let c_m_carry := w16 (Z.land c_m_added 0x4000) in
  let is_c_m_carry_msb := w16 (- c_m_carry) in
  let c_e_hidden_offset := w16 (Z.shiftr (Z.land c_m_added 0x4000) 0xe) in
  let c_m_sub_hidden := w16 (Z.shiftr c_m_added 0x1) in
  let c_m_no_hidden := sels16 is_c_m_carry_msb c_m_sub_hidden c_m_added in
  let c_e_no_hidden := w16 (c_e_added + c_e_hidden_offset) in
  let c_m_no_hidden_msb := w16 (Z.land c_m_no_hidden 0x2000) in
  let undenorm_m_msb_odd := w16 (Z.shiftr c_m_no_hidden_msb 0xd) in
  let undenorm_fix_e := w16 (Z.land is_undenorm undenorm_m_msb_odd) in
  let c_e_fixed := w16 (c_e_no_hidden + undenorm_fix_e) in
  let c_m_round_amount := w16 (Z.land c_m_no_hidden h_grs_round_mask) in
  let c_m_rounded := w16 (c_m_no_hidden + c_m_round_amount) in
  let c_m_round_overflow := w16 (Z.shiftr (Z.land c_m_rounded 0x4000) 0xe) in
  let c_e_rounded := w16 (c_e_fixed + c_m_round_overflow) in
  let c_m_no_grs := w16 (Z.land (Z.shiftr c_m_rounded 0x3) 0x3ff) in
  let c_e := w16 (Z.shiftl c_e_rounded 0xa) in
  let c_em := w16 (Z.lor c_e c_m_no_grs) in
  let c_normal := w16 (Z.lor c_s c_em) in
  let c_inf_result := sels16 is_a_inf_msb c_inf c_normal in
  let c_zero_result := w16 (Z.land c_inf_result (Z.lnot is_diff_exactly_zero)) in
  let c_result := sels16 is_invalid_inf_op_msb 0xfe00 c_zero_result in
  Ok (c_result).

(* half.hpp l.355-470: halfMul. *)
Definition halfMul (J : shift_sem) (x y : Z) : outcome Z :=
  let a_s := w32 (Z.land x 0x8000) in
  let b_s := w32 (Z.land y 0x8000) in
  let c_s := w32 (Z.lxor a_s b_s) in
  let x_e := w32 (Z.land x 0x7c00) in
  let x_e_eqz_msb := w32 (x_e - 1) in
  let a := sels32 x_e_eqz_msb y x in
  let b := sels32 x_e_eqz_msb x y in
  let a_e := w32 (Z.land a 0x7c00) in
  let b_e := w32 (Z.land b 0x7c00) in
  let a_m := w32 (Z.land a 0x3ff) in
  let b_m := w32 (Z.land b 0x3ff) in
  let a_e_amount := w32 (Z.shiftr a_e 0xa) in
  let b_e_amount := w32 (Z.shiftr b_e 0xa) in
  let a_m_with_hidden := w32 (Z.lor a_m 0x400) in
  let b_m_with_hidden := w32 (Z.lor b_m 0x400) in
  let c_m_normal := w32 (a_m_with_hidden * b_m_with_hidden) in
  let c_m_denorm_biased := w32 (a_m_with_hidden * b_m) in
  let c_e_denorm_unbias_e := w32 (0xf - a_e_amount) in
  let c_m_denorm_round_amount := w32 (Z.land c_m_denorm_biased 0x3ff) in
  let c_m_denorm_rounded := w32 (c_m_denorm_biased + c_m_denorm_round_amount) in
  let c_m_denorm_inplace := w32 (Z.shiftr c_m_denorm_rounded 0xa) in
  do c_m_denorm_unbiased <- shr32 J c_m_denorm_inplace c_e_denorm_unbias_e;
  let c_m_denorm := w32 (Z.land c_m_denorm_unbiased 0x3ff) in
  let c_e_amount_biased := w32 (a_e_amount + b_e_amount) in
  let c_e_amount_unbiased := w32 (c_e_amount_biased - 0xf) in
  let is_c_e_unbiased_underflow := asr31 c_e_amount_unbiased in
  let c_e_underflow_half_sa := w32 (- c_e_amount_unbiased) in
  let c_e_underflow_sa := w32 (Z.shiftl c_e_underflow_half_sa 0x1) in
  do c_m_underflow <- shr32 J c_m_normal c_e_underflow_sa;
  let c_e_underflow_added := w32 (Z.land c_e_amount_unbiased (Z.lnot is_c_e_unbiased_underflow)) in
  let c_m_underflow_added := selb32 is_c_e_unbiased_underflow c_m_underflow c_m_normal in
  let is_mul_overflow_test := w32 (Z.land c_e_underflow_added 0x20) in
  let is_mul_overflow_msb := w32 (- is_mul_overflow_test) in
  let c_e_norm_radix_corrected := w32 (c_e_underflow_added + 1) in
  let c_m_norm_radix_corrected := w32 (Z.shiftr c_m_underflow_added 0x1) in
  let c_m_norm_hidden_bit := w32 (Z.land c_m_norm_radix_corrected 0x100000) in
  let is_c_m_norm_no_hidden_msb := w32 (c_m_norm_hidden_bit - 1) in
  let c_m_norm_lo := w32 (Z.shiftr c_m_norm_radix_corrected 0x5) in
  let c_m_norm_lo_nlz := cntlz16 (w16 c_m_norm_lo) in
  let is_c_m_hidden_nunderflow_msb := w32 (c_m_norm_lo_nlz - c_e_norm_radix_corrected) in
  let is_c_m_hidden_underflow_msb := w32 (Z.lnot is_c_m_hidden_nunderflow_msb) in
  let is_c_m_hidden_underflow := asr31 is_c_m_hidden_underflow_msb in
  let c_m_hidden_underflow_normalized_sa := w32 (Z.shiftr c_m_norm_lo_nlz 0x1) in
  do c_m_hidden_underflow_normalized <- shl32 J c_m_norm_radix_corrected c_m_hidden_underflow_normalized_sa;
  do c_m_hidden_normalized <- shl32 J c_m_norm_radix_corrected c_m_norm_lo_nlz;
  let c_e_hidden_normalized := w32 (c_e_norm_radix_corrected - c_m_norm_lo_nlz) in
  let c_e_hidden := w32 (Z.land c_e_hidden_normalized (Z.lnot is_c_m_hidden_underflow)) in
  let c_m_hidden := sels32 is_c_m_hidden_underflow_msb c_m_hidden_underflow_normalized c_m_hidden_normalized in
  let c_m_normalized := sels32 is_c_m_norm_no_hidden_msb c_m_hidden c_m_norm_radix_corrected in
  let c_e_normalized := sels32 is_c_m_norm_no_hidden_msb c_e_hidden c_e_norm_radix_corrected in
  let c_m_norm_round_amount := w32 (Z.land c_m_normalized 0x3ff) in
  let c_m_norm_rounded := w32 (c_m_normalized + c_m_norm_round_amount) in
  let is_round_overflow_test := w32 (Z.land c_e_normalized 0x20) in
  let is_round_overflow_msb := w32 (- is_round_overflow_test) in
  let c_m_norm_inplace := w32 (Z.shiftr c_m_norm_rounded 0xa) in
  let c_m := w32 (Z.land c_m_norm_inplace 0x3ff) in
  let c_e_norm_inplace := w32 (Z.shiftl c_e_normalized 0xa) in
  let c_e := w32 (Z.land c_e_norm_inplace 0x7c00) in
  let c_em_nan := w32 (Z.lor 0x7c00 a_m) in
  let c_nan := w32 (Z.lor a_s c_em_nan) in
  let c_denorm := w32 (Z.lor c_s c_m_denorm) in
  let c_inf := w32 (Z.lor c_s 0x7c00) in
  let c_em_norm := w32 (Z.lor c_e c_m) in
  let is_a_e_flagged_msb := w32 (0x7bff - a_e) in
  let is_b_e_flagged_msb := w32 (0x7bff - b_e) in
  let is_a_e_eqz_msb := w32 (a_e - 1) in
  let is_a_m_eqz_msb := w32 (a_m - 1) in
  let is_b_e_eqz_msb := w32 (b_e - 1) in
  let is_b_m_eqz_msb := w32 (b_m - 1) in
  let is_b_eqz_msb := w32 (Z.land is_b_e_eqz_msb is_b_m_eqz_msb) in
  let is_a_eqz_msb := w32 (Z.land is_a_e_eqz_msb is_a_m_eqz_msb) in
  let is_c_nan_via_a_msb := w32 (Z.land is_a_e_flagged_msb (Z.lnot is_b_e_flagged_msb)) in
  let is_c_nan_via_b_msb := w32 (Z.land is_b_e_flagged_msb (Z.lnot is_b_m_eqz_msb)) in
  let is_c_nan_msb := w32 (Z.lor is_c_nan_via_a_msb is_c_nan_via_b_msb) in
  let is_c_denorm_msb := w32 (Z.land is_b_e_eqz_msb (Z.lnot is_a_e_flagged_msb)) in
  let is_a_inf_msb := w32 (Z.land is_a_e_flagged_msb is_a_m_eqz_msb) in
  let is_c_snan_msb := w32 (Z.land is_a_inf_msb is_b_eqz_msb) in
  let is_c_nan_min_via_a_msb := w32 (Z.land is_a_e_flagged_msb is_b_eqz_msb) in
  let is_c_nan_min_via_b_msb := w32 (Z.land is_b_e_flagged_msb is_a_eqz_msb) in
  let is_c_nan_min_msb := w32 (Z.lor is_c_nan_min_via_a_msb is_c_nan_min_via_b_msb) in
  let is_c_inf_msb := w32 (Z.lor is_a_e_flagged_msb is_b_e_flagged_msb) in
  let is_overflow_msb := w32 (Z.lor is_round_overflow_msb is_mul_overflow_msb) in
  let c_em_overflow_result := sels32 is_overflow_msb 0x7c00 c_em_norm in
  let c_common_result := w32 (Z.lor c_s c_em_overflow_result) in
  let c_zero_result := sels32 is_b_eqz_msb c_s c_common_result in
  let c_nan_result := sels32 is_c_nan_msb c_nan c_zero_result in
  let c_nan_min_result := sels32 is_c_nan_min_msb 0x7c01 c_nan_result in
  let c_inf_result := sels32 is_c_inf_msb c_inf c_nan_min_result in
  let c_denorm_result := sels32 is_c_denorm_msb c_denorm c_inf_result in
  let c_result := sels32 is_c_snan_msb 0xfe00 c_denorm_result in
  Ok (w16 c_result).


(* half.hpp l.472: halfNeg. *)
Definition halfNeg (h : Z) : Z := w16 (Z.lxor h 0x8000).
(* half.hpp l.474-476: halfSub. *)
Definition halfSub (J : shift_sem) (ha hb : Z) : outcome Z := halfAdd J ha (halfNeg hb).

(** The class [half]: a value is its bit pattern. *)
(* half.hpp l.547-551, 568-572: half(float) and operator float, on the bit pattern of the float. *)
Definition half_of_float (J : shift_sem) (f : Z) : outcome Z := floatToHalf J f.
Definition half_to_float (J : shift_sem) (h : Z) : outcome Z := halfToFloat J h.
(* half.hpp l.579-592: operator+=, -=, *= (and l.640-668: the binary operators, which copy and call them). *)
Definition half_plus (J : shift_sem) (x y : Z) : outcome Z := halfAdd J x y.
Definition half_minus (J : shift_sem) (x y : Z) : outcome Z := halfSub J x y.
Definition half_times (J : shift_sem) (x y : Z) : outcome Z := halfMul J x y.

(* half.hpp l.599-619: the increments, as (value of the object afterwards, value returned). *)
Definition half_pre_dec (J : shift_sem) (h : Z) : outcome (Z * Z) :=
  do r <- halfSub J h 0x3c00; Ok (r, r).
Definition half_post_dec (J : shift_sem) (h : Z) : outcome (Z * Z) :=
  do tmp <- halfSub J h 0x3c00; Ok (h, tmp).
Definition half_pre_inc (J : shift_sem) (h : Z) : outcome (Z * Z) :=
  do r <- halfAdd J h 0x3c00; Ok (r, r).
Definition half_post_inc (J : shift_sem) (h : Z) : outcome (Z * Z) :=
  do tmp <- halfAdd J h 0x3c00; Ok (h, tmp).
(* half.hpp l.621-623: unary minus. *)
Definition half_negate (h : Z) : Z := w16 (Z.lor (Z.land h 0x7fff) (Z.lxor h 0x8000)).

(* half.hpp l.12-19: the bit fields of float16_t, first field lowest (as GCC, Clang and MSVC lay them out on
   little-endian targets). *)
Definition m_frac (h : Z) : Z := h mod 2 ^ 10.
Definition m_exp (h : Z) : Z := (h / 2 ^ 10) mod 2 ^ 5.
Definition m_sign (h : Z) : Z := h / 2 ^ 15.

(* half.hpp l.670-688: operator<. *)
Definition half_lt (l r : Z) : bool :=
  if m_sign l =? 1 then
    if m_sign r =? 0 then true
    else if m_exp l >? m_exp r then true
    else if m_exp l <? m_exp r then false
    else if m_frac l >? m_frac r then true
    else false
  else if m_sign r =? 1 then false
  else if m_exp l >? m_exp r then false
  else if m_exp l <? m_exp r then true
  else if m_frac l >=? m_frac r then false
  else true.
(* half.hpp l.690-713: the other comparisons. *)
Definition half_eq (l r : Z) : bool := l =? r.
Definition half_ne (l r : Z) : bool := negb (l =? r).
Definition half_le (l r : Z) : bool := half_lt l r || half_eq l r.
Definition half_gt (l r : Z) : bool := negb (half_le l r).
Definition half_ge (l r : Z) : bool := negb (half_lt l r).

(* half.hpp l.738-757: the constants of TypeInfo<half>. *)
Definition c_infinity := 0x7c00.
Definition c_max := 0x7bff.
Definition c_maxSubnormal := 0x3ff.
Definition c_min := 0xfbff.
Definition c_minPositive := 0x400.
Definition c_minPositiveSubnormal := 0x1.
Definition c_nan := 0x7e00.
Definition c_negativeInfinity := 0xfc00.
Definition c_epsilon := 0x1400.
Definition c_one := 0x3c00.
Definition c_negativeOne := 0x4000.
Definition c_two := 0x4000.
Definition c_negativeTwo := 0xc000.
Definition c_half := 0x3800.
Definition c_negativeHalf := 0x3b00.
Definition c_zero := 0x0.
Definition c_negativeZero := 0x8000.
Definition c_e := 0x4170.
Definition c_pi := 0x4248.
