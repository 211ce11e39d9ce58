(** The kernel sources of the CUDA back end and their cache: src/cudaKernelProcessor.cpp; and the names of OpenCL error codes:
    src/openclErrorIdentifier.cpp. *)
From Coq Require Import ZArith String Ascii.
From Verif Require Import Base.
Local Open Scope string_scope.

(** A file: its text, and whether the process may write to it *)
Record file := { text : string; writable : bool }.
(** What the operating system finds under each path it is asked for (a path with doubled slashes is a path like any other) *)
Definition fsys := string -> option file.

(** std::fstream f(path): the default mode is in|out, so the file has to exist and to be writable (trusted: the C++ standard);
    None is a stream that is not open *)
Definition fopen (fs : fsys) (path : string) : option string :=
  match fs path with
  | Some f => if writable f then Some (text f) else None
  | None => None
  end.

(** std::stringstream with its failbit *)
Record stream := { buf : string; fail : bool }.
Definition fresh : stream := {| buf := ""; fail := false |}.
(** stream << text *)
Definition put (s : stream) (t : string) : stream :=
  if fail s then s else {| buf := buf s ++ t; fail := false |}.
(** stream << file.rdbuf(): inserting no character at all sets failbit (trusted: the C++ standard, ostream.inserters) *)
Definition put_file (s : stream) (f : option string) : stream :=
  if fail s then s
  else match f with
       | Some (String a t) => {| buf := buf s ++ String a t; fail := false |}
       | _ => {| buf := buf s; fail := true |}
       end.

Definition nl : string := String (ascii_of_nat 10) "".

(** cudaKernelProcessor.cpp l.11-17: the paths of the four files; [root] is LIBRAPID_SOURCE *)
Definition basePath (root : string) : string := root ++ "/include/librapid/cuda/kernels/".
Definition helperPath (root : string) : string := basePath root ++ "/kernelHelper.cuh".
Definition vectorOpsPath (root : string) : string := basePath root ++ "/vectorOps.cuh".
Definition dualPath (root : string) : string := root ++ "/include/librapid/autodiff/dual.hpp".
Definition kernelPath (root : string) (relative : bool) (path : string) : string :=
  (if relative then basePath root ++ "/" else "") ++ path ++ ".cu".

(** l.7: static std::map<std::string, std::string> mapping *)
Definition cache := string -> option string.
Definition remember (c : cache) (p t : string) : cache := fun q => if String.eqb q p then Some t else c q.

Definition is_open (f : option string) : bool := match f with Some _ => true | None => false end.

(** l.6-37: loadKernel; the cache afterwards and the text, or the exception of a failed LIBRAPID_ASSERT *)
Definition loadKernel (asserts : bool) (root : string) (fs : fsys) (c : cache) (path : string) (relative : bool)
  : cache * outcome string :=
  match c path with
  | Some t => (c, Ok t)
  | None =>
    let helper := fopen fs (helperPath root) in
    let vectorOps := fopen fs (vectorOpsPath root) in
    let dual := fopen fs (dualPath root) in
    let kernel := fopen fs (kernelPath root relative path) in
    if asserts && negb (is_open helper) then (c, Throw RuntimeError)
    else if asserts && negb (is_open vectorOps) then (c, Throw RuntimeError)
    else if asserts && negb (is_open dual) then (c, Throw RuntimeError)
    else if asserts && negb (is_open kernel) then (c, Throw RuntimeError)
    else
      let b := put_file fresh helper in
      let b := put b (nl ++ nl) in
      let b := put_file b vectorOps in
      let b := put b (nl ++ nl) in
      let b := put_file b dual in
      let b := put b (nl ++ nl) in
      let b := put_file b kernel in
      let t := path ++ nl ++ buf b in
      (remember c path t, Ok t)
  end.

(** A program that loads kernels; between two loads the files may change in any way (the file system is read at each load) *)
Record load := { files : fsys; path : string; relative : bool }.
Fixpoint loads (asserts : bool) (root : string) (c : cache) (h : list load) : list (outcome string) :=
  match h with
  | [] => []
  | l :: h => let '(c, a) := loadKernel asserts root (files l) c (path l) (relative l) in a :: loads asserts root c h
  end.
(** The process starts with an empty map *)
Definition none : cache := fun _ => None.

(** openclErrorIdentifier.cpp l.6-73: the table *)
Definition strings : list string :=
  ["CL_SUCCESS"; "CL_DEVICE_NOT_FOUND"; "CL_DEVICE_NOT_AVAILABLE"; "CL_COMPILER_NOT_AVAILABLE"; "CL_MEM_OBJECT_ALLOCATION_FAILURE";
   "CL_OUT_OF_RESOURCES"; "CL_OUT_OF_HOST_MEMORY"; "CL_PROFILING_INFO_NOT_AVAILABLE"; "CL_MEM_COPY_OVERLAP";
   "CL_IMAGE_FORMAT_MISMATCH"; "CL_IMAGE_FORMAT_NOT_SUPPORTED"; "CL_BUILD_PROGRAM_FAILURE"; "CL_MAP_FAILURE";
   ""; ""; ""; ""; ""; ""; ""; ""; ""; ""; ""; ""; ""; ""; ""; ""; "";
   "CL_INVALID_VALUE"; "CL_INVALID_DEVICE_TYPE"; "CL_INVALID_PLATFORM"; "CL_INVALID_DEVICE"; "CL_INVALID_CONTEXT";
   "CL_INVALID_QUEUE_PROPERTIES"; "CL_INVALID_COMMAND_QUEUE"; "CL_INVALID_HOST_PTR"; "CL_INVALID_MEM_OBJECT";
   "CL_INVALID_IMAGE_FORMAT_DESCRIPTOR"; "CL_INVALID_IMAGE_SIZE"; "CL_INVALID_SAMPLER"; "CL_INVALID_BINARY";
   "CL_INVALID_BUILD_OPTIONS"; "CL_INVALID_PROGRAM"; "CL_INVALID_PROGRAM_EXECUTABLE"; "CL_INVALID_KERNEL_NAME";
   "CL_INVALID_KERNEL_DEFINITION"; "CL_INVALID_KERNEL"; "CL_INVALID_ARG_INDEX"; "CL_INVALID_ARG_VALUE"; "CL_INVALID_ARG_SIZE";
   "CL_INVALID_KERNEL_ARGS"; "CL_INVALID_WORK_DIMENSION"; "CL_INVALID_WORK_GROUP_SIZE"; "CL_INVALID_WORK_ITEM_SIZE";
   "CL_INVALID_GLOBAL_OFFSET"; "CL_INVALID_EVENT_WAIT_LIST"; "CL_INVALID_EVENT"; "CL_INVALID_OPERATION"; "CL_INVALID_GL_OBJECT";
   "CL_INVALID_BUFFER_SIZE"; "CL_INVALID_MIP_LEVEL"; "CL_INVALID_GLOBAL_WORK_SIZE"; "CL_UNKNOWN_ERROR_CODE"]%string.
(** strings[i] with a 64-bit index: outside the table it is undefined behaviour *)
Definition entry (i : Z) : outcome string :=
  if (i <? 0)%Z then UB
  else match nth_error strings (Z.to_nat i) with Some s => Ok s | None => UB end.
(** l.75-79: getOpenCLErrorString; -error cannot overflow between -63 and 0 *)
Definition errorString (error : Z) : outcome string :=
  if ((-63 <=? error) && (error <=? 0))%Z then entry (- error) else entry 64.
