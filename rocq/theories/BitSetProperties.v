(** C01-C07: librapid::BitSet. *)
From Verif Require Import Base BitSetModel BitSetSpec BitSetProofs.
From Coq Require Import Ascii.

(** ** C01 *)
Theorem C01_bitset_history :
  forall n ops, Forall (fun '(i, _) => i < n) ops ->
  exists d, run_sets ops (empty n) = Ok d /\
    (forall j, j < n -> get d j = Ok (last_write ops (fun _ => false) j)) /\
    popCount d = count_bits (last_write ops (fun _ => false)) n /\
    any d = existsb (last_write ops (fun _ => false)) (seq 0 n) /\
    none d = negb (any d).
Proof. exact history_all. Qed.
Print Assumptions C01_bitset_history.
Example C01_hypotheses_met :
  Forall (fun '(i, _) => i < 130) [(3, true); (129, true); (3, false); (64, true)].
Proof. repeat constructor. Qed.
Example C01_instance :
  exists d, run_sets [(3, true); (129, true); (3, false); (64, true)] (empty 130) = Ok d /\ popCount d = 2.
Proof. eexists. split; [vm_compute; reflexivity|]. vm_compute. reflexivity. Qed.

(** Every history of writes also keeps the set well formed, starting from any well-formed set. *)
Theorem C01_history_wellformed :
  forall n ops, Forall (fun '(i, _) => i < n) ops ->
  exists d, run_sets ops (empty n) = Ok d /\ ok n d /\
    forall j, bit d j = last_write ops (fun _ => false) j.
Proof. exact history_ok. Qed.
Print Assumptions C01_history_wellformed.
(** the set {3, 64, 129} of 130 positions, used below as a non-trivial well-formed set *)
Example C01_history_wellformed_ex : ok 130 [8; 1; 2]%N /\ bit [8; 1; 2]%N 64 = true /\ bit [8; 1; 2]%N 65 = false.
Proof.
  split; [|vm_compute; auto].
  destruct (history_ok 130 [(3, true); (129, true); (7, true); (64, true); (7, false)] ltac:(repeat constructor)) as (d & E & O & _).
  vm_compute in E. injection E as <-. exact O.
Qed.
Example C01_wellformed_single : ok 10 [514]%N.
Proof. apply ok_single_check; [split; repeat constructor| |]; vm_compute; reflexivity. Qed.

Theorem C01_equality :
  forall n d e, ok n d -> ok n e ->
  (BitSetModel.eqb d e = true <-> forall i, i < n -> get d i = get e i).
Proof. exact bs_eqb_spec. Qed.
Print Assumptions C01_equality.
Example C01_equality_hypotheses_met : ok 70 (empty 70).
Proof. exact (ok_empty 70). Qed.

(** ** C02: the claim is false; exactly which positions are touched is known. *)
Theorem C02_range_write_refuted :
  exists n d a b d' j, ok n d /\ a <= n /\ b <= n /\ setRange d a b true = Ok d' /\
    j < n /\ ~ (min a b <= j < max a b) /\ get d j = Ok false /\ get d' j = Ok true.
Proof. exact setRange_refuted. Qed.
Print Assumptions C02_range_write_refuted.

(** What is missing: ranges that start inside a word and end in the same word. *)
Theorem C02_range_write_partial :
  forall n d a b v, ok n d -> max a b <= n ->
  (min a b mod 64 = 0 \/ min a b / 64 < max a b / 64) ->
  exists d', setRange d a b v = Ok d' /\ ok n d' /\
    forall j, j < n -> get d' j = if (min a b <=? j) && (j <? max a b) then Ok v else get d j.
Proof. exact setRange_partial. Qed.
Print Assumptions C02_range_write_partial.
Example C02_hypotheses_met : ok 200 (empty 200) /\ max 150 10 <= 200 /\
  (min 150 10 mod 64 = 0 \/ min 150 10 / 64 < max 150 10 / 64).
Proof. split; [exact (ok_empty 200)|]. split; [|right]; vm_compute; repeat constructor. Qed.

(** In every case: the positions written are [lowest, max), where lowest is rounded down to the
    start of the word if both ends fall in the same word. *)
Theorem C02_range_write_exact :
  forall n d a b v, ok n d -> max a b <= n ->
  exists d', setRange d a b v = Ok d' /\ ok n d' /\
    forall j, j < n -> get d' j =
      if ((if min a b / 64 =? max a b / 64 then 64 * (min a b / 64) else min a b) <=? j)
         && (j <? max a b) then Ok v else get d j.
Proof. exact setRange_all. Qed.
Print Assumptions C02_range_write_exact.
Example C02_range_write_exact_ex : max 7 5 <= 130 /\ setRange [8; 1; 2]%N 7 5 true = Ok [127; 1; 2]%N /\ setRange [8; 1; 2]%N 3 129 false = Ok [0; 0; 2]%N.
Proof. split; [cbv; repeat constructor|]. split; vm_compute; reflexivity. Qed.

(** ** C03 *)
Theorem C03_shift_left_partial :
  forall n d s, ok n d -> shift_defined n s ->
  exists d', shl d (Z.of_nat s) = Ok d' /\ length d' = length d /\ wf d' /\
    forall i, i < n -> get d' i = if s <=? i then get d (i - s) else Ok false.
Proof. exact shl_get. Qed.
Print Assumptions C03_shift_left_partial.
Example C03_shift_left_ex : shift_defined 130 61 /\ shl [8; 1; 2]%N 61 = Ok [0; 2305843009213693953; 4611686018427387904]%N /\ shl [8; 0; 0]%N 65 = Ok [0; 16; 0]%N.
Proof. split; [right; cbv; split; [repeat constructor|left; discriminate]|]. split; vm_compute; reflexivity. Qed.
Example C03_hypotheses_met : ok 200 (empty 200) /\ shift_defined 200 67.
Proof. split; [exact (ok_empty 200)|]. right. cbv. split; [repeat constructor|left; discriminate]. Qed.

Theorem C03_shift_right_partial :
  forall n d s, ok n d -> shift_defined n s ->
  exists d', shr d (Z.of_nat s) = Ok d' /\ ok n d' /\
    forall i, i < n -> get d' i = if i + s <? n then get d (i + s) else Ok false.
Proof. exact shr_get. Qed.
Print Assumptions C03_shift_right_partial.
Example C03_shift_right_ex : shift_defined 130 61 /\ shr [8; 1; 2]%N 61 = Ok [8; 16; 0]%N.
Proof. split; [right; cbv; split; [repeat constructor|left; discriminate]|]. vm_compute; reflexivity. Qed.

(** All other distances are undefined behaviour. *)
Theorem C03_shift_undefined_refuted :
  forall n d s, ok n d -> ~ shift_defined n s ->
  shl d (Z.of_nat s) = UB /\ shr d (Z.of_nat s) = UB.
Proof. exact shift_undefined. Qed.
Print Assumptions C03_shift_undefined_refuted.
Example C03_undefined_met : ok 192 (empty 192) /\ ~ shift_defined 192 64.
Proof. exact shift_64_undefined. Qed.

Theorem C03_negative_distance :
  forall d s, (Z.abs s < 2 ^ 63)%Z -> shl d (- s) = shr d s /\ shr d (- s) = shl d s.
Proof. exact shift_neg. Qed.
Print Assumptions C03_negative_distance.
Example C03_negative_distance_ex : (Z.abs 61 < 2 ^ 63)%Z /\ shl [8; 1; 2]%N (- 61) = Ok [8; 16; 0]%N.
Proof. split; vm_compute; reflexivity. Qed.

(** A left shift does not drop bits pushed past n: they are counted and come back. *)
Theorem C03_left_then_right_refuted :
  exists n d s d1 d2 i, ok n d /\ shift_defined n s /\ shl d (Z.of_nat s) = Ok d1 /\
    shr d1 (Z.of_nat s) = Ok d2 /\ i < n /\ n <= i + s /\ get d2 i = Ok true /\
    (forall j, j < n -> get d1 j = Ok false) /\ popCount d1 = 1.
Proof. exact shl_shr_refuted. Qed.
Print Assumptions C03_left_then_right_refuted.

(** When n is a multiple of 64 nothing is left over, and the full claim holds. *)
Theorem C03_left_then_right_partial :
  forall n d s, ok n d -> shift_defined n s -> n mod 64 = 0 ->
  exists d1 d2, shl d (Z.of_nat s) = Ok d1 /\ ok n d1 /\ shr d1 (Z.of_nat s) = Ok d2 /\ ok n d2 /\
    forall i, i < n -> get d2 i = if i + s <? n then get d i else Ok false.
Proof. exact shl_shr_mult64. Qed.
Print Assumptions C03_left_then_right_partial.
Example C03_mult64_met : ok 128 (empty 128) /\ shift_defined 128 65 /\ 128 mod 64 = 0.
Proof. split; [exact (ok_empty 128)|]. split; [|reflexivity]. right. cbv.
  split; [repeat constructor|left; discriminate]. Qed.

(** ** C04 *)
Theorem C04_complement_partial :
  forall n d, n mod 64 <> 0 -> ok n d ->
  exists d', compl n d = Ok d' /\ ok n d' /\
    (forall i, i < n -> get d' i = omap negb (get d i)) /\
    compl n d' = Ok d /\ popCount d + popCount d' = n.
Proof. exact compl_all. Qed.
Print Assumptions C04_complement_partial.
Example C04_complement_ex : compl 130 [8; 1; 2]%N = Ok [18446744073709551607; 18446744073709551614; 1]%N.
Proof. vm_compute. reflexivity. Qed.
Example C04_hypotheses_met : 70 mod 64 <> 0 /\ ok 70 (empty 70).
Proof. split; [discriminate|exact (ok_empty 70)]. Qed.

(** Missing: n a multiple of 64, where the last 64 positions always read false. *)
Theorem C04_complement_refuted :
  forall n d, 0 < n -> n mod 64 = 0 -> ok n d ->
  exists d', compl n d = Ok d' /\
    forall i, i < n -> get d' i = if n - 64 <=? i then Ok false else omap negb (get d i).
Proof. exact compl_mult64. Qed.
Print Assumptions C04_complement_refuted.
Example C04_refuted_met : 0 < 128 /\ 128 mod 64 = 0 /\ ok 128 (empty 128).
Proof. split; [repeat constructor|]. split; [reflexivity|exact (ok_empty 128)]. Qed.

Theorem C04_all_partial :
  forall n d, n mod 64 = 0 -> ok n d ->
  (all d = true <-> forall i, i < n -> get d i = Ok true).
Proof. exact all_iff. Qed.
Print Assumptions C04_all_partial.
Example C04_all_ex : 64 mod 64 = 0 /\ ok 64 [N.ones 64] /\ all [N.ones 64] = true /\ all [1]%N = false.
Proof. split; [reflexivity|]. split; [|vm_compute; auto]. apply ok_single_check; [split; repeat constructor| |]; vm_compute; reflexivity. Qed.

(** Missing: for any other n, all() is never true, even when every position is. *)
Theorem C04_all_refuted :
  (forall n d, n mod 64 <> 0 -> ok n d -> all d = false) /\
  (exists d, ok 10 d /\ forall i, i < 10 -> get d i = Ok true).
Proof. exact all_refuted. Qed.
Print Assumptions C04_all_refuted.

(** ** C05 *)
Theorem C05_first :
  forall n d, ok n d ->
  (first n d = n /\ forall j, j < n -> get d j = Ok false) \/
  (first n d < n /\ get d (first n d) = Ok true /\ forall j, j < first n d -> get d j = Ok false).
Proof. exact first_get. Qed.
Print Assumptions C05_first.
Example C05_first_ex : first 130 [8; 1; 2]%N = 3 /\ first 130 [0; 0; 2]%N = 129 /\ first 130 [0; 0; 0]%N = 130.
Proof. vm_compute. auto. Qed.

(** last() is right on every non-empty set ... *)
Theorem C05_last_partial :
  forall n d, ok n d -> (exists i, i < n /\ get d i = Ok true) ->
  exists b, last d = Ok b /\ b < n /\ get d b = Ok true /\ forall j, b < j < n -> get d j = Ok false.
Proof. exact last_nonempty. Qed.
Print Assumptions C05_last_partial.
Example C05_hypotheses_met :
  exists d, set1 (empty 100) 77 true = Ok d /\ get d 77 = Ok true /\ last d = Ok 77 /\ first 100 d = 77.
Proof. eexists. split; [vm_compute; reflexivity|]. vm_compute. auto. Qed.

(** ... and reads outside the set on every empty one. *)
Theorem C05_last_empty_refuted :
  forall n d, ok n d -> (forall i, i < n -> get d i = Ok false) -> last d = UB.
Proof. exact last_empty. Qed.
Print Assumptions C05_last_empty_refuted.
Example C05_empty_met : ok 100 (empty 100) /\ forall i, i < 100 -> get (empty 100) i = Ok false.
Proof. split; [exact (ok_empty 100)|exact (empty_reads 100)]. Qed.

(** ** C06 *)
Theorem C06_logical_read :
  forall n m d e i, ok n d -> ok m e -> i < n ->
  get (or_assign d e) i = Ok (posn d i || posn e i) /\
  get (xor_assign d e) i = Ok (xorb (posn d i) (posn e i)) /\
  get (and_assign d e) i = Ok (posn d i && posn e i).
Proof. exact logic_read. Qed.
Print Assumptions C06_logical_read.
Example C06_logical_ex : or_assign [8; 1; 2]%N [514]%N = [522; 1; 2]%N /\ and_assign [8; 1; 2]%N [10]%N = [8; 0; 0]%N /\ xor_assign [8; 1; 2]%N [10]%N = [2; 1; 2]%N.
Proof. vm_compute. auto. Qed.
Example C06_hypotheses_met : ok 70 (empty 70) /\ ok 200 (empty 200) /\ 5 < 70.
Proof. split; [exact (ok_empty 70)|]. split; [exact (ok_empty 200)|repeat constructor]. Qed.

(** No position outside the set becomes set: proved for &= always, for |= and ^= when the other
    operand is not larger. *)
Theorem C06_no_stray_bits_partial :
  forall n m d e, ok n d -> ok m e ->
  ok n (and_assign d e) /\ (m <= n -> ok n (or_assign d e) /\ ok n (xor_assign d e)).
Proof. exact logic_ok. Qed.
Print Assumptions C06_no_stray_bits_partial.
Example C06_no_stray_bits_ex : ok 130 [8; 1; 2]%N /\ ok 10 [514]%N /\ 10 <= 130.
Proof. split; [apply C01_history_wellformed_ex|]. split; [exact C01_wellformed_single|repeat constructor]. Qed.

Theorem C06_no_stray_bits_refuted :
  exists n m d e, ok n d /\ ok m e /\ n < m /\
    (forall i, i < n -> get (or_assign d e) i = Ok false) /\
    popCount (or_assign d e) = 1 /\ popCount (xor_assign d e) = 1 /\
    any (or_assign d e) = true.
Proof. exact or_stray_refuted. Qed.
Print Assumptions C06_no_stray_bits_refuted.

(** ** C07 *)
Theorem C07_text_round_trip :
  forall n d, ok n d ->
  exists s, str n d = Ok s /\ length s = n /\
    (forall i, i < n -> nth_error s i =
        Some (if posn d (n - 1 - i) then char1 else char0)) /\
    of_string n s = Ok d.
Proof. exact text_roundtrip. Qed.
Print Assumptions C07_text_round_trip.
Example C07_instance : str 5 [5%N] = Ok ["0"; "0"; "1"; "0"; "1"]%char.
Proof. vm_compute. reflexivity. Qed.

Theorem C07_bad_character_rejected :
  forall n s, length s <= n -> ~ Forall (fun c => c = char0 \/ c = char1) s ->
  of_string n s = Throw RuntimeError.
Proof. exact of_string_bad. Qed.
Print Assumptions C07_bad_character_rejected.
Example C07_bad_met : length ["1"; "x"]%char <= 4 /\ of_string 4 ["1"; "x"]%char = Throw RuntimeError.
Proof. split; [repeat constructor|vm_compute; reflexivity]. Qed.
