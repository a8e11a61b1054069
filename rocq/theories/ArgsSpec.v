(** How a command is written on the command line, independently of the parser of Args.v. *)
From Coq Require Import Ascii String Bool List.
From Verif Require Import Text Cli.
Import ListNotations.
Local Open Scope char_scope.

Definition exact_name (a : exact_algorithm) : text :=
  match a with V0 => txt "v0" | V1 => txt "v1" | V2 => txt "v2" | V3 => txt "v3" | V4 => txt "v4" | V5 => txt "v5" | V6 => txt "v6" end.
Definition approx_name (a : approx_algorithm) : text :=
  match a with NearestNeighbour => txt "nearest-neighbour" | Christofides => txt "christofides" end.
Definition bound_name (a : lower_bound_algorithm) : text :=
  match a with OneTree => txt "one-tree" | MST => txt "mst" | MSTQueue => txt "mst-queue" end.
Definition parallelism_name (p : parallelism) : text :=
  match p with SingleThreaded => txt "single-threaded" | MultiThreaded => txt "multi-threaded" | MPI => txt "mpi" end.

(** -p v, -pv, -p=v, --parallelism v, --parallelism=v *)
Definition spellings (short long v : text) : list (list text) :=
  [[txt "-" ++ short; v]; [txt "-" ++ short ++ v]; [txt "-" ++ short ++ txt "=" ++ v];
   [txt "--" ++ long; v]; [txt "--" ++ long ++ txt "=" ++ v]].

(** A word that is not an option: it does not begin with a dash, or is one. *)
Definition is_word (s : text) : Prop := s = txt "-" \/ forall s', s <> txt "-" ++ s'.

(** [args] consists of the words [pos] and the options -p with the values [ps] and -l with the values
    [ls], mixed in any way; after -- there are only words.  [mpi]: the program is compiled with
    MPI; [bounds]: there is an option -l. *)
Inductive arranged (mpi bounds : bool) : list text -> list text -> list parallelism -> list lower_bound_algorithm -> Prop :=
| arr_nil : arranged mpi bounds [] [] [] []
| arr_dashes rest : arranged mpi bounds (txt "--" :: rest) rest [] []
| arr_word s args pos ps ls : is_word s -> arranged mpi bounds args pos ps ls -> arranged mpi bounds (s :: args) (s :: pos) ps ls
| arr_parallelism p words args pos ps ls : (p = MPI -> mpi = true) ->
    In words (spellings (txt "p") (txt "parallelism") (parallelism_name p)) ->
    arranged mpi bounds args pos ps ls -> arranged mpi bounds (words ++ args) pos (p :: ps) ls
| arr_bound l words args pos ps ls : bounds = true ->
    In words (spellings (txt "l") (txt "lower-bound") (bound_name l)) ->
    arranged mpi bounds args pos ps ls -> arranged mpi bounds (words ++ args) pos ps (l :: ls).

(** [args] is a way to write the command for the file [path]; parallelism is single-threaded if it is not
    given. *)
Definition default {A} (d a : A) (l : list A) : Prop := l = [] /\ a = d \/ l = [a].
Inductive written (mpi : bool) : command -> text -> list text -> Prop :=
| wr_exact a p path args ps : path <> [] -> arranged mpi false args [exact_name a; path] ps [] -> default SingleThreaded p ps ->
    written mpi (ExactCmd a p) path (txt "exact" :: args)
| wr_approx a p lb path args ps ls : path <> [] -> arranged mpi true args [approx_name a; path] ps ls -> default SingleThreaded p ps ->
    (ls = [] /\ lb = None \/ exists l, ls = [l] /\ lb = Some l) ->
    written mpi (ApproxCmd a p lb) path (txt "approx" :: args)
| wr_bound a p path args ps : path <> [] -> arranged mpi false args [bound_name a; path] ps [] -> default SingleThreaded p ps ->
    written mpi (LowerBoundCmd a p) path (txt "lower-bound" :: args).
