(** Model of serialisation.  Source: librapid/include/librapid/utils/serialize.hpp.
    An object of a trivially copyable type T is its sizeof(T) bytes; the class does not check that T
    is trivially copyable (other types are not modelled).  A byte is an N below 256. *)
From Coq Require Import String Ascii.
From Verif Require Import Base.
Local Open Scope nat_scope.

(** What the template uses of a type: sizeof(T) and typetraits::typeName<T>(). *)
Record type := mkt { size : nat; name : string }.

Section Serializer.
(** std::hash<std::string>: any function; the result is a 64-bit number. *)
Variable hash : string -> N.
(** whether LIBRAPID_ASSERT is active *)
Variable asserts : bool.

(** hasher(), l.20-24 *)
Definition hasher (T : type) : N := (hash (name T) mod 2 ^ 64)%N.

(** The bytes of a size_t in memory (8 bytes, little endian). *)
Fixpoint bytes_of (n : nat) (v : N) : list N :=
  match n with O => [] | S n' => (v mod 256)%N :: bytes_of n' (v / 256)%N end.
Fixpoint of_bytes (l : list N) : N :=
  match l with [] => 0%N | b :: l' => (b + 256 * of_bytes l')%N end.

(** memcpy into dst at offset o, and memcpy of n bytes out of src at offset o: outside the block is
    undefined behaviour. *)
Definition copy_in (dst : list N) (o : nat) (src : list N) : outcome (list N) :=
  if o + length src <=? length dst then Ok (firstn o dst ++ src ++ skipn (o + length src) dst) else UB.
Definition copy_out (src : list N) (o n : nat) : outcome (list N) :=
  if o + n <=? length src then Ok (firstn n (skipn o src)) else UB.

(** SerializerImpl::serialize, l.26-33 *)
Definition serialize (T : type) (obj : list N) : outcome (list N) :=
  let data := repeat 0%N (size T + 8) in
  do data <- copy_in data (size T) (bytes_of 8 (hasher T));
  copy_in data 0 obj.

(** SerializerImpl::deserialize, l.35-45 *)
Definition deserialize (T : type) (data : list N) : outcome (list N) :=
  do h <- copy_out data (size T) 8;
  if asserts && negb (hasher T =? of_bytes h)%N then Throw RuntimeError
  else copy_out data 0 (size T).
End Serializer.

(** Files.  fileBinMode, l.8-14: a path containing ".bin" is opened in binary mode. *)
Definition binary (path : string) : bool :=
  match String.index 0 ".bin" path with Some _ => true | None => false end.

(** A file system maps paths to contents.  In text mode on Windows a line feed is written as
    carriage return, line feed; reading reverses that and stops at the first Ctrl-Z (26).  Elsewhere
    text mode changes nothing. *)
Fixpoint to_text (l : list N) : list N :=
  match l with
  | [] => []
  | b :: l' => if (b =? 10)%N then 13%N :: 10%N :: to_text l' else b :: to_text l'
  end.
Fixpoint of_text (l : list N) : list N :=
  match l with
  | [] => []
  | b :: l' => if (b =? 26)%N then [] else
               match l' with
               | c :: l'' => if ((b =? 13) && (c =? 10))%N then 10%N :: of_text l'' else b :: of_text l'
               | [] => [b]
               end
  end.

Section Files.
Variable windows : bool.
Definition fs := string -> option (list N).

(** write(path), l.69-79: the file is truncated and the bytes written *)
Definition write (f : fs) (path : string) (data : list N) : fs :=
  fun p => if String.eqb p path
           then Some (if windows && negb (binary path) then to_text data else data)
           else f p.

(** read(path), l.81-95: m_data gets the size of the file; [read] fills a prefix, and reports
    failure if it got fewer bytes.  Returns the success flag and m_data. *)
Definition read (f : fs) (path : string) (old : list N) : bool * list N :=
  match f path with
  | None => (false, old)
  | Some c =>
    let got := if windows && negb (binary path) then of_text c else c in
    (length got =? length c, got ++ repeat 0%N (length c - length got))
  end.
End Files.
