(** Vocabulary of the claims about loops that run on several threads (C94). *)
From Coq Require Import Reals List Arith Permutation.
From Verif Require Import Model_Push Model_Interp Model_Par.
Import ListNotations.
Open Scope R_scope.

(** ** One thread *)
(** The iteration [p] executed without interruption. *)
Fixpoint run (p : prog) (m : mem) : mem :=
  match p with
  | Done => m
  | Rd a i k => run (k (m a i)) m
  | Wr a i v k => run k (store m a i v)
  end.
(** [for i in range(n)] *)
Definition one_thread (body : loop_body) (n : nat) (m : mem) : mem :=
  fold_left (fun m i => run (body i) m) (seq 0 n) m.

(** ** Several threads *)
(** The iterations [0 .. n-1] are distributed over the threads, each to exactly one. *)
Definition distribution (n : nat) (chunks : list (list nat)) : Prop := Permutation (concat chunks) (seq 0 n).
Definition all_finished (pool : list thread) : Prop := Forall finished pool.
(** A complete execution of a sequence of loops over [n] entries: for each loop any distribution, any
    interleaving; the next loop starts when all threads have finished. *)
Inductive executes (n : nat) : list loop_body -> mem -> mem -> Prop :=
| ex_none m : executes n [] m m
| ex_loop body loops chunks k pool m m1 m2 :
    distribution n chunks -> steps body k (start chunks, m) (pool, m1) -> all_finished pool ->
    executes n loops m1 m2 -> executes n (body :: loops) m m2.
(** The iteration touches only the entries [i] of the arrays. *)
Inductive own (i : nat) : prog -> Prop :=
| own_done : own i Done
| own_read a k : (forall v, own i (k v)) -> own i (Rd a i k)
| own_write a v k : own i k -> own i (Wr a i v k).

(** ** Arrays seen as particles *)
Definition part_at (f : axis -> name) (m : mem) (i : nat) : part :=
  mkp (m (f AX) i) (m (f AY) i) (m (f AXI) i) (m (f APX) i) (m (f APY) i) (m (f APZ) i).
Definition em_at (m : mem) (i : nat) : em :=
  mke (m (Field EX) i) (m (Field EY) i) (m (Field EZ) i) (m (Field BX) i) (m (Field BY) i) (m (Field BZ) i).
Definition particles (f : axis -> name) (m : mem) (n : nat) : list part := map (part_at f m) (seq 0 n).
Definition fields_felt (m : mem) (n : nat) : list em := map (em_at m) (seq 0 n).
Definition work_arrays (m : mem) (n : nat) : rk_arrays :=
  mkrk (particles Temp m n) (particles Push m n) (particles Kay m n) (fields_felt m n).
(** What a source does to the fields of all particles.  On the grid: as [gather_main_fields_cyl_linear],
    a particle whose gathering fails keeps its entries. *)
Definition as_field (s : source) : field :=
  match s with
  | Analytical c => analytical c
  | Grid er ez_ bt g => fun ps _ b =>
      map2 (fun p f => match gather_main1 er ez_ bt g p f with Ok v => v | Fault _ => f end) ps b
  end.
