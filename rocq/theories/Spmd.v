(** Processes that run the same program and exchange messages, as with MPI.

    Nothing here models a particular piece of the repository: it is a rendering of the
    operations of MPI that matching.rs uses, with blocking calls, messages between two
    processes in order per tag, and receives that name their source. *)
From Coq Require Import Arith Bool List.
From Verif Require Import Base.
Import ListNotations.

Section Spmd.
Context {M A : Type}.

(** What a process still has to do. *)
Inductive proc :=
| Ret (a : A)                                     (* finished *)
| Crash                                           (* panicked *)
| Send (dst tag : nat) (v : M) (k : proc)         (* send_with_tag *)
| Recv (src tag : nat) (k : M -> proc)            (* process_at_rank(src).receive_with_tag *)
| Bcast (v : M) (k : M -> proc).                  (* broadcast_into with root 0; [v]: the own buffer *)

(** The processes by rank, the messages under way by source, destination and tag, the
    broadcasts a process has not yet taken part in, and the number it has taken part in. *)
Record conf := mkConf {
  c_proc : nat -> proc;
  c_chan : nat -> nat -> nat -> list M;
  c_bq : nat -> list M;
  c_nb : nat -> nat
}.

Definition set_proc (f : nat -> proc) (i : nat) (p : proc) : nat -> proc := fun j => if j =? i then p else f j.
Definition set_chan (f : nat -> nat -> nat -> list M) (s d t : nat) (l : list M) : nat -> nat -> nat -> list M :=
  fun s' d' t' => if (s' =? s) && (d' =? d) && (t' =? t) then l else f s' d' t'.

(** One step of process [i], if it can make one.  Messages may be buffered without limit. *)
Definition fire (i : nat) (c : conf) : option conf :=
  match c_proc c i with
  | Ret _ | Crash => None
  | Send dst tag v k =>
      Some (mkConf (set_proc (c_proc c) i k) (set_chan (c_chan c) i dst tag (c_chan c i dst tag ++ [v])) (c_bq c) (c_nb c))
  | Recv src tag k =>
      match c_chan c src i tag with
      | [] => None
      | v :: rest => Some (mkConf (set_proc (c_proc c) i (k v)) (set_chan (c_chan c) src i tag rest) (c_bq c) (c_nb c))
      end
  | Bcast v k =>
      let nb := fun j => if j =? i then S (c_nb c i) else c_nb c j in
      if i =? 0 then
        Some (mkConf (set_proc (c_proc c) i (k v)) (c_chan c) (fun j => if j =? 0 then c_bq c j else c_bq c j ++ [v]) nb)
      else
        match c_bq c i with
        | [] => None
        | v' :: rest => Some (mkConf (set_proc (c_proc c) i (k v')) (c_chan c) (fun j => if j =? i then rest else c_bq c j) nb)
        end
  end.

(** [reach size n c c']: the first [size] processes get from [c] to [c'] in [n] steps, in some order *)
Inductive reach (size : nat) : nat -> conf -> conf -> Prop :=
| reach_refl : forall c, reach size 0 c c
| reach_step : forall n i c c' c'', i < size -> fire i c = Some c' -> reach size n c' c'' -> reach size (S n) c c''.

Definition at_bcast (p : proc) : Prop := match p with Bcast _ _ => True | _ => False end.

(** Process [i] can go on whatever the implementation of MPI buffers: a send is certain to end
    only when its receiver waits for it and nothing else is under way, a broadcast only when
    all processes have at least reached it. *)
Definition ready (size : nat) (c : conf) (i : nat) : Prop :=
  match c_proc c i with
  | Ret _ | Crash => False
  | Send dst tag v k => c_chan c i dst tag = [] /\ dst < size /\ exists k', c_proc c dst = Recv i tag k'
  | Recv src tag k => c_chan c src i tag <> []
  | Bcast v k => forall j, j < size -> c_nb c i < c_nb c j \/ (c_nb c j = c_nb c i /\ at_bcast (c_proc c j))
  end.

(** before the first step *)
Definition start (f : nat -> proc) : conf := mkConf f (fun _ _ _ => []) (fun _ => []) (fun _ => 0).

(** all processes have finished, with these results *)
Definition finished (size : nat) (c : conf) (r : nat -> A) : Prop := forall i, i < size -> c_proc c i = Ret (r i).

End Spmd.
Arguments proc : clear implicits.
Arguments conf : clear implicits.

(** sequencing, and the outcome of a local computation *)
Fixpoint pbind {M A B} (p : proc M A) (f : A -> proc M B) : proc M B :=
  match p with
  | Ret a => f a
  | Crash => Crash
  | Send dst tag v k => Send dst tag v (pbind k f)
  | Recv src tag k => Recv src tag (fun v => pbind (k v) f)
  | Bcast v k => Bcast v (fun x => pbind (k x) f)
  end.
Definition lift {M A} (r : res A) : proc M A := match r with Ok a => Ret a | _ => Crash end.
