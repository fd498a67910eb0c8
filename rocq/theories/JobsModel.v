(* Several prune and prune-all commands at the same time on one directory (src/prune.rs:37-125, src/bin/sortnetopt.rs:116-124).
   LogModel.v has one command at a time, with files known by their names.  Here a file that is open is known by its inode:
   File::create on an existing name empties the file that is there, a rename moves the name and not the file, and a
   process goes on writing to the file it has opened, at its own position. *)
From Coq Require Import String List Arith Bool.
Import ListNotations.
From Verif Require Import Spec Util OutputSetModel TreeModel IndexModel StatesModel FileModel LogModel.

(* the directory: inode of a name, contents of an inode, next free inode (prune.rs:38-47, 112) *)
Record Disk := mkDisk { dk_name : text -> option nat; dk_data : nat -> list nat; dk_next : nat }.
(* the files by name, as another command sees them (prune.rs:38, 42, 117) *)
Definition dk_view (d : Disk) : Fs := fun name => match dk_name d name with Some i => Some (dk_data d i) | None => None end.
(* a name is entered or removed (prune.rs:47, 112) *)
Definition dk_enter (d : Disk) (name : text) (v : option nat) : Disk :=
  mkDisk (fun x => if list_eqb Nat.eqb x name then v else dk_name d x) (dk_data d) (dk_next d).
(* the contents of an inode change (prune.rs:47, 98) *)
Definition dk_store (d : Disk) (i : nat) (bytes : list nat) : Disk :=
  mkDisk (dk_name d) (fun x => if x =? i then bytes else dk_data d x) (dk_next d).
(* File::create (prune.rs:47): an existing file is emptied, otherwise there is a new inode; the second component is the inode *)
Definition dk_create (d : Disk) (name : text) : Disk * nat :=
  match dk_name d name with
  | Some i => (dk_store d i [], i)
  | None => let i := dk_next d in (dk_enter (dk_store (mkDisk (dk_name d) (dk_data d) (S i)) i []) name (Some i), i)
  end.
(* one byte written at a position (prune.rs:98); a position after the end leaves zeros in between *)
Definition write_at (data : list nat) (pos byte : nat) : list nat :=
  firstn pos (data ++ repeat 0 (pos - List.length data)) ++ byte :: skipn (S pos) data.
(* fs::rename (prune.rs:112); None if there is no such file *)
Definition dk_rename (d : Disk) (from to : text) : option Disk :=
  i <- dk_name d from ;; Some (dk_enter (dk_enter d to (Some i)) from None).

(* where a process is in prune: before File::open (prune.rs:38), before File::create (prune.rs:47) with the mapped file, writing to an
   inode at a position what is to be written (prune.rs:79-112), or ended by a panic.  Simplified: all of the output is
   computed at File::create; a panic in between is a panic there.  The mapped file is read at once (nobody writes to it). *)
Inductive Phase :=
| PhOpen
| PhMake (data : list nat)
| PhWrite (inode pos : nat) (out : list nat)
| PhFailed.
(* a process: the calls of prune it has to make, the first one being under way.  One for the command prune
   (sortnetopt.rs:116-119), one for each line for prune-all (prune.rs:118-124) *)
Record Proc := mkProc { pc_jobs : list (nat * text); pc_phase : Phase }.
(* the calls of prune-all (prune.rs:115-125).  Simplified: all lines are read at the start, so a line that cannot be parsed stops the
   command at once *)
Definition all_jobs (fs : Fs) : option (list (nat * text)) :=
  index <- fs index_name ;; map_opt (fun line => channels <- line_channels line ;; Some (channels, line)) (lines index).

(* one step of a process (prune.rs:37-113): open, map and test for the output; create; one byte; rename.  None: it has ended *)
Definition proc_step (d : Disk) (p : Proc) : option (Disk * Proc) :=
  match pc_jobs p with
  | [] => None
  | (channels, input) :: rest =>
      let output := with_extension input (str "pbin") in
      let tmp := with_extension input (str "tmp") in
      let to ph := mkProc (pc_jobs p) ph in
      match pc_phase p with
      | PhOpen =>
          match (file <- dk_view d input ;; mmap file) with
          | None => Some (d, to PhFailed)
          | Some data => match dk_name d output with
                         | Some _ => Some (d, mkProc rest PhOpen)
                         | None => Some (d, to (PhMake data))
                         end
          end
      | PhMake data =>
          let (d', i) := dk_create d tmp in
          match prune_data channels data with
          | None => Some (d', to PhFailed)
          | Some out => Some (d', to (PhWrite i 0 (concat out)))
          end
      | PhWrite i pos out =>
          match nth_error out pos with
          | Some byte => Some (dk_store d i (write_at (dk_data d i) pos byte), to (PhWrite i (S pos) out))
          | None => match dk_rename d tmp output with
                    | None => Some (d, to PhFailed)
                    | Some d' => Some (d', mkProc rest PhOpen)
                    end
          end
      | PhFailed => None
      end
  end.

(* the directory and the processes at work on it (sortnetopt.rs:116-124) *)
Record Dir := mkDir { dr_disk : Disk; dr_procs : list Proc }.
(* one step of any of the processes; a process that is killed takes no more steps (prune.rs:37-113) *)
Inductive dir_step : Dir -> Dir -> Prop :=
| dir_one d ps k p d' p' : nth_error ps k = Some p -> proc_step d p = Some (d', p') -> dir_step (mkDir d ps) (mkDir d' (upd ps k p')).
(* what may be reached from a directory and the calls that each process has to make (prune.rs:37-125) *)
Inductive dir_run (d0 : Disk) (jobs : list (list (nat * text))) : Dir -> Prop :=
| dir_start : dir_run d0 jobs (mkDir d0 (map (fun j => mkProc j PhOpen) jobs))
| dir_next s s' : dir_run d0 jobs s -> dir_step s s' -> dir_run d0 jobs s'.
