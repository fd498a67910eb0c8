(* The parallel iterators of src/prune.rs:83-94 and src/proof.rs:122-140.

   A call of rayon is modelled as a tree of jobs that any number of threads work on: a job may be divided at any
   place before its work has begun, the pieces are worked on in any order and interleaving, one item at a time, and
   the results of the two halves are put together in the order of the items when both have ended.  A panic of the
   closure ends its job; the job above it waits for the other half and then panics as well.

   Simplifications.  rayon is not part of the project and is modelled by its documented behaviour: join runs both
   closures and waits for both also if one panics, filter and map with collect keep the order of a vector.  The
   closures only read what they share (the index, the mapped file, the bounds), which the type checker of Rust
   makes sure of, except for the counter of the progress bar, which is atomic. *)
From Coq Require Import String List Arith Bool Permutation.
Import ListNotations.
From Verif Require Import Spec Util OutputSetModel TreeModel IndexModel FileModel LogModel DecodeModel ProofGenModel.

(* a job: the items still to do and the results so far; a job that was divided; a job that panicked
   (src/prune.rs:84, src/proof.rs:126 into_par_iter) *)
Inductive Job (A B : Type) : Type :=
| Todo (items : list A) (out : list B)
| Fork (l r : Job A B)
| Dead.
Arguments Todo {A B}. Arguments Fork {A B}. Arguments Dead {A B}.

(* the jobs that have ended (src/prune.rs:94, src/proof.rs:140 collect waits for this) *)
Definition ended {A B} (j : Job A B) : bool :=
  match j with Todo [] _ => true | Dead => true | _ => false end.

(* one step of some thread; f is the closure: None is a panic, otherwise the results for the item (none or one for
   filter, one for map); the number is the position of the progress bar (src/prune.rs:85-94, src/proof.rs:127-140) *)
Inductive job_step {A B} (f : A -> option (list B)) : Job A B * nat -> Job A B * nat -> Prop :=
| step_split l1 l2 c : l1 <> [] -> l2 <> [] -> job_step f (Todo (l1 ++ l2) [], c) (Fork (Todo l1 []) (Todo l2 []), c)
| step_item x r out ys c : f x = Some ys -> job_step f (Todo (x :: r) out, c) (Todo r (out ++ ys), S c)
| step_panic x r out c : f x = None -> job_step f (Todo (x :: r) out, c) (Dead, S c)
| step_left l l' r c c' : job_step f (l, c) (l', c') -> job_step f (Fork l r, c) (Fork l' r, c')
| step_right l r r' c c' : job_step f (r, c) (r', c') -> job_step f (Fork l r, c) (Fork l r', c')
| step_join o1 o2 c : job_step f (Fork (Todo [] o1) (Todo [] o2), c) (Todo [] (o1 ++ o2), c)
| step_dead_left r c : ended r = true -> job_step f (Fork Dead r, c) (Dead, c)
| step_dead_right l c : ended l = true -> job_step f (Fork l Dead, c) (Dead, c).

(* k steps (src/prune.rs:83-94, src/proof.rs:122-140) *)
Inductive job_steps {A B} (f : A -> option (list B)) : nat -> Job A B * nat -> Job A B * nat -> Prop :=
| steps_none x : job_steps f 0 x x
| steps_one k x y z : job_step f x y -> job_steps f k y z -> job_steps f (S k) x z.

(* a whole call of into_par_iter .. collect; the result None is a panic (src/prune.rs:83-94, src/proof.rs:122-140) *)
Definition par_call {A B} (f : A -> option (list B)) (items : list A) (res : option (list B)) : Prop :=
  exists k j c, job_steps f k (Todo items [], 0) (j, c) /\
    match res with Some out => j = Todo [] out | None => j = Dead end.

(* src/prune.rs:85-93 the closure of filter *)
Definition prune_closure (channels stride : nat) (data : list nat) (ix : Index) (id : nat) : option (list nat) :=
  s <- get_set channels stride data id ;;
  found <- lookup ix s (abstraction s) ;;
  Some (match found with None => [id] | Some _ => [] end).

(* src/prune.rs:79-109 the loop over the groups; the state is the index and the chunks written *)
Inductive groups_par (channels stride : nat) (data : list nat)
  : list (nat * list nat) -> Index * list (list nat) -> option (Index * list (list nat)) -> Prop :=
| groups_end st : groups_par channels stride data [] st (Some st)
| groups_panic g r st :
    par_call (prune_closure channels stride data (fst st)) (snd g) None -> groups_par channels stride data (g :: r) st None
| groups_write_panic g r st ids :
    par_call (prune_closure channels stride data (fst st)) (snd g) (Some ids) ->
    fold_opt (write_id channels stride data) ids st = None -> groups_par channels stride data (g :: r) st None
| groups_next g r st ids st' res :
    par_call (prune_closure channels stride data (fst st)) (snd g) (Some ids) ->
    fold_opt (write_id channels stride data) ids st = Some st' ->
    groups_par channels stride data r st' res -> groups_par channels stride data (g :: r) st res.

(* src/prune.rs:49-109 the chunks that are written; None is a panic *)
Definition prune_data_par (channels : nat) (data : list nat) (res : option (list (list nat))) : Prop :=
  match chunks (packed_len_for_channels channels) data with
  | None => res = None
  | Some packed_sets => exists r,
      groups_par channels (packed_len_for_channels channels) data (by_state_len packed_sets) (index_new LowerInvert channels, []) r /\
      res = option_map snd r
  end.

(* src/proof.rs:127-139 the closure of map *)
Definition prove_closure (g : GenProof) (e : OutputSet * nat) : option (list (OutputSet * PStep)) :=
  st <- find_step g (snd e) (fst e) ;; Some [(fst e, st)].

(* src/proof.rs:114-141 prove_all; None is a panic *)
Definition prove_all_par (g : GenProof) (res : option GenProof) : Prop :=
  exists r, par_call (prove_closure g) (output_sets g) r /\
    res = option_map (fun sts => mkGen (pruned_indexes g) (output_sets g) sts (step_ids g) (step_data g)) r.

(* src/proof.rs:122-140 the HashMap that collect makes of the pairs *)
Definition collect_steps (sts : list (OutputSet * PStep)) : list (OutputSet * PStep) :=
  fold_left (fun l e => set_put (fst e) (snd e) l) sts [].

(* src/proof.rs:23-73 up to the contents of proof.bin; the entries of the HashMap output_sets come in any order
   (src/proof.rs:122-125); None is a panic *)
Definition gen_proof_par (fuel : nat) (fs : Fs) (res : option (list nat)) : Prop :=
  match ixs <- load_indexes fs ;; n <- max_channels ixs ;; g <- gen_new ixs ;; Some (n, g) with
  | None => res = None
  | Some (n, g) => exists order r, Permutation (output_sets g) order /\ par_call (prove_closure g) order r /\
      res = (sts <- r ;;
             e <- encode_proof fuel (mkGen (pruned_indexes g) (output_sets g) (collect_steps sts) (step_ids g) (step_data g)) (all_values n) ;;
             Some (write_proof (step_data (fst e))))
  end.

(* src/prune.rs:37-113 the changes to the files; None is a panic *)
Definition prune_ops_par (channels : nat) (input : text) (fs : Fs) (res : option (list FsOp)) : Prop :=
  match file <- fs input ;; mmap file with
  | None => res = None
  | Some data =>
      let output := with_extension input (str "pbin") in
      match fs output with
      | Some _ => res = Some []
      | None =>
          let tmp := with_extension input (str "tmp") in
          exists w, prune_data_par channels data w /\
            res = option_map (fun written => Create tmp :: map (fun b => Append tmp [b]) (concat written) ++ [Rename tmp output]) w
      end
  end.

(* src/prune.rs:118-124, with the changes to the files in order; None is a panic *)
Fixpoint prune_lines_par (ls : list text) (fs : Fs) (res : option (list FsOp)) : Prop :=
  match ls with
  | [] => res = Some []
  | line :: r =>
      match line_channels line with
      | None => res = None
      | Some channels => exists o, prune_ops_par channels line fs o /\
          match o with
          | None => res = None
          | Some ops => exists rest, prune_lines_par r (fs_run ops fs) rest /\ res = option_map (app ops) rest
          end
      end
  end.

(* src/prune.rs:115-125 *)
Definition prune_all_ops_par (fs : Fs) (res : option (list FsOp)) : Prop :=
  match fs index_name with None => res = None | Some index => prune_lines_par (lines index) fs res end.
(* src/prune.rs:115-125, all changes made *)
Definition prune_all_par (fs : Fs) (res : option Fs) : Prop :=
  exists o, prune_all_ops_par fs o /\ res = option_map (fun ops => fs_run ops fs) o.

(* any number of runs of prune_all (src/prune.rs:115-125), each of which may stop after any number of its operations *)
Inductive crashes_par : Fs -> Fs -> Prop :=
| crash_none_par fs : crashes_par fs fs
| crash_run_par fs fs1 ops k : crashes_par fs fs1 -> prune_all_ops_par fs1 (Some ops) -> crashes_par fs (fs_run (firstn k ops) fs1).
