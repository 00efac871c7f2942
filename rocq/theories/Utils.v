(** ggce/utils/utils.py:11-73 - Buffer, chunk_jobs, padded_kw, float_to_list,
    flatten. *)
From Coq Require Import String ZArith List Bool.
From Verif Require Import Base Space.
Import ListNotations.
Open Scope list_scope.
Open Scope Z_scope.

Section Buffer.
Context {A : Type}.

(** utils.py:12-16; the values are immutable objects *)
Record buffer := mkBuffer { b_nbuff : Z; b_counter : Z; b_queue : list A }.
Definition b_init (nbuff : Z) : buffer := mkBuffer nbuff 0 [].

(** The target directory: files in the order of their creation.  Writing to a
    name that exists replaces the contents. *)
Definition folder := list (string * list A).
Fixpoint put (name : string) (v : list A) (d : folder) : folder :=
  match d with
  | [] => [(name, v)]
  | (n, x) :: r => if String.eqb n name then (n, v) :: r else (n, x) :: put name v r
  end.

(** A buffer with the directory it writes to; [used] counts the names drawn
    from [uuid.uuid4().hex]. *)
Record bstate := mkBst { bs_buf : buffer; bs_dir : folder; bs_used : nat }.

Section Uuid.
Variable uuid : nat -> string.

(** utils.py:18-23 [flush] *)
Definition flush (s : bstate) : bstate :=
  let b := bs_buf s in
  if 0 <? b_counter b
  then mkBst (mkBuffer (b_nbuff b) 0 []) (put (append (uuid (bs_used s)) ".pkl") (b_queue b) (bs_dir s)) (S (bs_used s))
  else s.

(** utils.py:25-29 [__call__] *)
Definition call (v : A) (s : bstate) : bstate :=
  let b := bs_buf s in
  let b' := mkBuffer (b_nbuff b) (b_counter b + 1) (b_queue b ++ [v]) in
  let s' := mkBst b' (bs_dir s) (bs_used s) in
  if b_nbuff b' <=? b_counter b' then flush s' else s'.

Inductive buffer_op := Put (v : A) | Flush.
Definition buffer_step (s : bstate) (o : buffer_op) : bstate :=
  match o with Put v => call v s | Flush => flush s end.
Definition buffer_run (s : bstate) (ops : list buffer_op) : bstate := fold_left buffer_step ops s.
End Uuid.
End Buffer.
Arguments buffer : clear implicits.
Arguments bstate : clear implicits.
Arguments folder : clear implicits.
Arguments buffer_op : clear implicits.

(** numpy.array_split on a list (numpy/lib/shape_base.py): the section sizes,
    their cumulative sums and the slices between them. *)
Definition section_sizes (total n : nat) : list nat :=
  let each := Nat.div total n in
  let extras := Nat.modulo total n in
  repeat (S each) extras ++ repeat each (n - extras).
Fixpoint cumsum (acc : nat) (l : list nat) : list nat :=
  match l with [] => [acc] | x :: r => acc :: cumsum (acc + x) r end.
Definition slice_list {A} (l : list A) (st en : nat) : list A := firstn (en - st) (skipn st l).
Definition array_split {A} (l : list A) (n : Z) : result (list (list A)) :=
  if n <=? 0 then Err ValueError
  else let div := cumsum 0 (section_sizes (List.length l) (Z.to_nat n)) in
       Ok (map (fun i => slice_list l (nth i div 0%nat) (nth (S i) div 0%nat)) (seq 0 (Z.to_nat n))).

(** utils.py:32-33 [chunk_jobs]; ranks are non-negative *)
Definition chunk_jobs {A} (jobs : list A) (world_size : Z) (rank : nat) : result (list A) :=
  parts <- array_split jobs world_size ;;
  match nth_error parts rank with Some p => Ok p | None => Err IndexError end.

(** What callers pass as k or w: a float, an int, or a list/array of floats. *)
Inductive arg (T : Type) := AFloat (x : T) | AInt (z : Z) | AList (l : list T).
Arguments AFloat {T}. Arguments AInt {T}. Arguments AList {T}.

(** utils.py:66-69 [float_to_list], followed by iteration: an int is returned
    as it is, and iterating over it or taking its length raises TypeError. *)
Definition float_to_list {T} (a : arg T) : arg T :=
  match a with AFloat x => AList [x] | _ => a end.
Definition elements {T} (a : arg T) : result (list T) :=
  match a with AList l => Ok l | _ => Err TypeError end.

(** utils.py:72-73 [flatten] *)
Definition flatten {A} (t : list (list A)) : list A := flat_map (fun sub => map (fun item => item) sub) t.

(** Arithmetic on grid points: addition, subtraction, integer multiples. *)
Record gridops (T : Type) := mkGrid { g_add : T -> T -> T; g_sub : T -> T -> T; g_scale : Z -> T -> T }.
Arguments g_add {T}. Arguments g_sub {T}. Arguments g_scale {T}.

Section Pad.
Context {T : Type}.
Variable G : gridops T.

(** utils.py:43-46: [np.where(rems == 0)[0][0]]; IndexError when there is none *)
Definition num_pads (fixed len num_brig ext : Z) : result Z :=
  match find (fun ii => (fixed * (len + ii)) mod num_brig =? 0) (range 0 ext) with
  | Some ii => Ok ii
  | None => Err IndexError
  end.

(** utils.py:47-51: [x] followed by multiples of the last spacing; [x[-2]]
    raises IndexError on arrays with fewer than two points *)
Definition pad_points (x : list T) (n : Z) : result (list T) :=
  match rev x with
  | last :: prev :: _ =>
      let d := g_sub G last prev in
      Ok (x ++ map (fun ii => g_add G last (g_scale G ii d)) (range 1 (n + 1)))
  | _ => Err IndexError
  end.

Definition len {A} (l : list A) : Z := Z.of_nat (List.length l).

(** utils.py:36-63 [padded_kw]; [num_brig] positive *)
Definition padded_kw (k w : list T) (num_brig ext : Z) : result (list T * list T) :=
  if 1 <? len w then
    n <- num_pads (len k) (len w) num_brig ext ;;
    w' <- pad_points w n ;;
    Ok (k, w')
  else
    n <- num_pads (len w) (len k) num_brig ext ;;
    k' <- pad_points k n ;;
    Ok (k', w).
End Pad.
