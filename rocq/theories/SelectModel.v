(** Model of the choice of an OpenCL device, src/openclConfigure.cpp. *)
From Coq Require Import ZArith.
From Verif Require Import Base.

(** what the functions ask a device: cl_uint, cl_uint, cl_ulong, type, vendor, and whether the self-test
    (testOpenCLDevice l.14-72) succeeds *)
Record device := { units : Z; clock : Z; memory : Z; is_gpu : bool; is_nvidia : bool; works : bool }.
(** openclDeviceCompute, l.74-86; the product of two cl_uint is computed modulo 2^32 *)
Definition score (d : device) : Z :=
  ((units d * clock d) mod 2 ^ 32 + (if is_gpu d then 1000000 else 0) + (if is_nvidia d then 1000000 else 0) + memory d / (1024 * 1024))%Z.
(** updateOpenCLDevices, l.88-146: the devices of all platforms that pass the test are appended to [known] *)
Definition update_devices (known : list device) (platforms : list (list device)) : list device :=
  fold_left (fun acc ds => fold_left (fun acc d => if works d then acc ++ [d] else acc) ds acc) platforms known.
(** findFastestDevice, l.148-160; [None] is the device that [cl::Device fastest;] starts as, no device at all *)
Definition find_fastest (asserts : bool) (ds : list device) : outcome (option device) :=
  if asserts && (length ds =? 0) then Throw RuntimeError
  else Ok (fst (fold_left (fun (s : option device * Z) d => if (snd s <? score d)%Z then (Some d, score d) else s) ds (None, 0%Z))).
(** the prompt, l.238-246: numbers are read until one is an index; [None] if the input ends first (the loop goes on for ever) *)
Fixpoint prompt (ds : list device) (input : list Z) : option device :=
  match input with
  | [] => None
  | i :: r => if (i <? 0)%Z || (Z.of_nat (length ds) <=? i)%Z then prompt ds r else nth_error ds (Z.to_nat i)
  end.
