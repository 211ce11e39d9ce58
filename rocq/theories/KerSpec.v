(** What loading a kernel ought to give, and the error codes of the OpenCL standard. *)
From Coq Require Import ZArith String Ascii.
From Verif Require Import Base KerModel.
Local Open Scope string_scope.

(** [t] is what a program reads from, and may write to, the file at [p] *)
Definition reads (fs : fsys) (p t : string) : Prop := exists f, fs p = Some f /\ writable f = true /\ text f = t.
(** The file at [p] cannot be opened *)
Definition unreadable (fs : fsys) (p : string) : Prop := forall t, ~ reads fs p t.

(** The whole program text: a first line with the kernel's path, the three preludes and the kernel, separated by blank lines *)
Definition program (path helper vectorOps dual kernel : string) : string :=
  path ++ nl ++ helper ++ nl ++ nl ++ vectorOps ++ nl ++ nl ++ dual ++ nl ++ nl ++ kernel.

(** With these files, the load of [path] has the text [t] *)
Definition source (root : string) (fs : fsys) (path : string) (relative : bool) (t : string) : Prop :=
  exists h v d k, reads fs (helperPath root) h /\ reads fs (vectorOpsPath root) v /\ reads fs (dualPath root) d /\
    reads fs (kernelPath root relative path) k /\ t = program path h v d k.
(** One of the four files cannot be opened *)
Definition missing (root : string) (fs : fsys) (path : string) (relative : bool) : Prop :=
  unreadable fs (helperPath root) \/ unreadable fs (vectorOpsPath root) \/ unreadable fs (dualPath root) \/
  unreadable fs (kernelPath root relative path).
(** The three preludes are not empty files *)
Definition sound_files (root : string) (fs : fsys) : Prop :=
  ~ reads fs (helperPath root) "" /\ ~ reads fs (vectorOpsPath root) "" /\ ~ reads fs (dualPath root) "".

(** [path] has been loaded in the history [h], and [t] is the text of its first load that found all its files *)
Inductive first_text (root : string) (p : string) : list load -> string -> Prop :=
  | first_here : forall l h t, path l = p -> source root (files l) p (relative l) t -> first_text root p (l :: h) t
  | first_later : forall l h t, (path l = p -> missing root (files l) p (relative l)) -> first_text root p h t ->
      first_text root p (l :: h) t.

(** The texts one after the other, separated by blank lines, up to the first empty one *)
Fixpoint cut (texts : list string) : string :=
  match texts with
  | [] => ""
  | t :: rest => if String.eqb t "" then "" else match rest with [] => t | _ => t ++ nl ++ nl ++ cut rest end
  end.

(** No newline inside a path *)
Fixpoint one_line (s : string) : Prop :=
  match s with EmptyString => True | String a s => a <> ascii_of_nat 10 /\ one_line s end.

(** The error codes of the OpenCL 1.2 standard (CL/cl.h) between CL_MAP_FAILURE and CL_INVALID_VALUE *)
Definition newer_codes : list (Z * string) :=
  [(-13, "CL_MISALIGNED_SUB_BUFFER_OFFSET"); (-14, "CL_EXEC_STATUS_ERROR_FOR_EVENTS_IN_WAIT_LIST"); (-15, "CL_COMPILE_PROGRAM_FAILURE");
   (-16, "CL_LINKER_NOT_AVAILABLE"); (-17, "CL_LINK_PROGRAM_FAILURE"); (-18, "CL_DEVICE_PARTITION_FAILED");
   (-19, "CL_KERNEL_ARG_INFO_NOT_AVAILABLE")]%Z.
(** ... and some of the others, as the standard numbers them *)
Definition common_codes : list (Z * string) :=
  [(0, "CL_SUCCESS"); (-1, "CL_DEVICE_NOT_FOUND"); (-4, "CL_MEM_OBJECT_ALLOCATION_FAILURE"); (-5, "CL_OUT_OF_RESOURCES");
   (-6, "CL_OUT_OF_HOST_MEMORY"); (-11, "CL_BUILD_PROGRAM_FAILURE"); (-12, "CL_MAP_FAILURE"); (-30, "CL_INVALID_VALUE");
   (-33, "CL_INVALID_DEVICE"); (-34, "CL_INVALID_CONTEXT"); (-36, "CL_INVALID_COMMAND_QUEUE"); (-38, "CL_INVALID_MEM_OBJECT");
   (-44, "CL_INVALID_PROGRAM"); (-45, "CL_INVALID_PROGRAM_EXECUTABLE"); (-46, "CL_INVALID_KERNEL_NAME");
   (-48, "CL_INVALID_KERNEL"); (-52, "CL_INVALID_KERNEL_ARGS"); (-54, "CL_INVALID_WORK_GROUP_SIZE"); (-61, "CL_INVALID_BUFFER_SIZE");
   (-63, "CL_INVALID_GLOBAL_WORK_SIZE")]%Z.
