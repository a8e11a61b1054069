(** Model of the command line of src/cli.rs, of src/main.rs, and of the text the program prints.

    The code of walky is the declaration of subcommands, arguments and values; what clap 4
    (derive) makes of it is modelled from its documentation.  Whether clap prints a help text,
    the version or an error is not distinguished: in these cases the program ends without
    running anything. *)
From Coq Require Import Ascii String Bool List.
From Verif Require Import Num Base Data Precond Text Xml Utf8 Cli.
Import ListNotations.
Local Open Scope char_scope.

(** ** Values *)
(** [ValueEnum]: the names of the variants in kebab-case; upper and lower case are distinguished. *)
Definition one_of {A} (values : list (string * A)) (s : text) : option A :=
  option_map snd (find (fun v => text_eqb (txt (fst v)) s) values).
(** cli.rs:53-69 *)
Definition exact_values : list (string * exact_algorithm) :=
  [("v0", V0); ("v1", V1); ("v2", V2); ("v3", V3); ("v4", V4); ("v5", V5); ("v6", V6)]%string.
(** cli.rs:71-77 *)
Definition approx_values : list (string * approx_algorithm) :=
  [("nearest-neighbour", NearestNeighbour); ("christofides", Christofides)]%string.
(** cli.rs:79-89 *)
Definition lower_bound_values : list (string * lower_bound_algorithm) :=
  [("one-tree", OneTree); ("mst", MST); ("mst-queue", MSTQueue)]%string.
(** cli.rs:91-100: [mpi] is the feature of this name *)
Definition parallelism_values (mpi : bool) : list (string * parallelism) :=
  [("single-threaded", SingleThreaded); ("multi-threaded", MultiThreaded)]%string ++ if mpi then [("mpi", MPI)]%string else [].

(** ** Arguments of a subcommand *)
(** [#[arg(short, long)] parallelism] and [lower_bound] (cli.rs:23-24, 32-37, 47-48) *)
Inductive option_name := OptParallelism | OptLowerBound.
Definition long_of (o : option_name) : text := match o with OptParallelism => txt "parallelism" | OptLowerBound => txt "lower-bound" end.
Definition short_of (o : option_name) : ascii := match o with OptParallelism => "p" | OptLowerBound => "l" end.

Section Arguments.
Variable mpi : bool.
Variable bounds : bool.     (* whether the subcommand has the option lower_bound *)

Definition find_option (f : option_name -> bool) : option option_name :=
  find f (OptParallelism :: if bounds then [OptLowerBound] else []).

(** the positional arguments, and the values given to the two options *)
Definition given := (list text * list parallelism * list lower_bound_algorithm)%type.
Definition add_positional (s : text) (g : given) : given := let '(pos, ps, ls) := g in (s :: pos, ps, ls).
Definition add_value (o : option_name) (v : text) (rest : option given) : option given :=
  obind rest (fun '(pos, ps, ls) =>
  match o with
  | OptParallelism => option_map (fun p => (pos, p :: ps, ls)) (one_of (parallelism_values mpi) v)
  | OptLowerBound => option_map (fun l => (pos, ps, l :: ls)) (one_of lower_bound_values v)
  end).

Fixpoint split_eq (s : text) : text * option text :=
  match s with
  | [] => ([], None)
  | c :: s' => if Ascii.eqb c "=" then ([], Some s') else let '(a, b) := split_eq s' in (c :: a, b)
  end.

(** The arguments from left to right; [pending] is an option that waits for its value.  A value
    that looks like an option is not taken. *)
Fixpoint arguments (pending : option option_name) (args : list text) : option given :=
  match args with
  | [] => match pending with None => Some ([], [], []) | Some _ => None end
  | a :: args' =>
      match pending with
      | Some o => match a with "-" :: _ :: _ => None | _ => add_value o a (arguments None args') end
      | None =>
          match a with
          | ["-"; "-"] => Some (args', [], [])
          | "-" :: "-" :: long =>
              let '(name, value) := split_eq long in
              obind (find_option (fun o => text_eqb (long_of o) name)) (fun o =>
              match value with
              | Some v => add_value o v (arguments None args')
              | None => arguments (Some o) args'
              end)
          | "-" :: c :: attached =>
              obind (find_option (fun o => Ascii.eqb (short_of o) c)) (fun o =>
              match attached with
              | [] => arguments (Some o) args'
              | "=" :: v => add_value o v (arguments None args')
              | v => add_value o v (arguments None args')
              end)
          | _ => option_map (add_positional a) (arguments None args')
          end
      end
  end.

(** the two positional arguments: the algorithm and the path; each option at most once *)
Definition subcommand {A B} (values : list (string * A)) (make : A -> parallelism -> option lower_bound_algorithm -> B) (args : list text) : option (B * text) :=
  obind (arguments None args) (fun '(pos, ps, ls) =>
  match pos with
  | [a; (_ :: _) as path] =>
      obind (one_of values a) (fun a =>
      obind (match ps with [] => Some SingleThreaded | [p] => Some p | _ => None end) (fun p =>      (* default_value_t *)
      obind (match ls with [] => Some None | [l] => Some (Some l) | _ => None end) (fun l =>
      Some (make a p l, path))))
  | _ => None
  end).
End Arguments.

(** cli.rs:7-51: [args] are the arguments after the name of the program *)
Definition parse_args (mpi : bool) (args : list text) : option (command * text) :=
  match args with
  | sub :: args' =>
      if text_eqb sub (txt "exact") then subcommand mpi false exact_values (fun a p _ => ExactCmd a p) args'
      else if text_eqb sub (txt "approx") then subcommand mpi true approx_values (fun a p l => ApproxCmd a p l) args'
      else if text_eqb sub (txt "lower-bound") then subcommand mpi false lower_bound_values (fun a p _ => LowerBoundCmd a p) args'
      else None
  | [] => None
  end.

(** ** The program *)
Section Program.
Context {N : Num}.
Variable read : text -> option (C N).      (* [FromStr for f64] *)
Variable show : C N -> text.               (* [Display for f64] *)

(** What [println!] writes for each line: lib.rs:74-75, 128, 150-151, 199, 211, 218 *)
Definition line_text (l : line N) : text :=
  line_of match l with
  | BestCost c => txt "Best Cost: " ++ show c
  | BestPermutation p => txt "Best Permutation: " ++ show_list p
  | ChristofidesWeight c => txt "Christofides solution weight: " ++ show c
  | NnWeight c => txt "Nearest Neighbour solution weight: " ++ show c
  | NnSolution p => txt "Nearest Neighbour solution: " ++ show_list p
  | OneTreeBound c => txt "1-tree lower bound: " ++ show c
  | MstBound c => txt "MST lower bound: " ++ show c
  end.

(** main.rs:7-10: either clap ends the program, or the command runs and each process writes some text. *)
Inductive program_result := Usage | Ran (stdout : list text) (e : ending).
(** [files] gives the bytes of the file with a path, and [None] if it cannot be opened or read; lib.rs:36-44 *)
Definition walky (mpi : bool) (w : world) (files : text -> option text) (args : list text) (r : program_result) : Prop :=
  match parse_args mpi args with
  | None => r = Usage
  | Some (cmd, path) =>
      exists o, run w cmd (option_map i_graph (obind (obind (files path) read_to_string) (from_str read))) o /\
        r = Ran (map (flat_map line_text) (printed o)) (ended o)
  end.
End Program.
