(** Specification vocabulary for C82: accesses of different goroutines that conflict are ordered by the locks.
    By the Go memory model (go.dev/ref/mem) a release of a lock happens before the acquisitions that come after it, if one of the two is exclusive.
    So two accesses are ordered if after the first its goroutine releases a lock, and then, before the second, the other goroutine takes it. *)
From Verif Require Export SpecStable SpecShard.

(** An execution: one state after the other, [N] steps. *)
Definition execution {P : Setup} (T : Z -> Prop) (f : nat -> conf (list rdata)) (N : nat) : Prop := forall n, (n < N)%nat -> cstep T (f n) (f (S n)).
(** The lock is taken in a mode; released. *)
Definition acquired (m : mode) (x y : rw) : Prop := match m with MR => wr x = false /\ rd y = S (rd x) | MW => wr x = false /\ rd x = 0%nat /\ wr y = true end.
Definition released (m : mode) (x y : rw) : Prop := match m with MR => rd x = S (rd y) | MW => wr x = true /\ wr y = false end.
(** In the step from [c] to [c'], a step of goroutine [i], the lock [l] is taken in the mode [m]; released. *)
Definition takes {A} (i : nat) (l : N) (m : mode) (c c' : conf A) : Prop := ths c' !! i <> ths c !! i /\ acquired m (lk c l) (lk c' l).
Definition gives {A} (i : nat) (l : N) (m : mode) (c c' : conf A) : Prop := ths c' !! i <> ths c !! i /\ released m (lk c l) (lk c' l).
(** At time [n] goroutine [i] works on the value of [key]: it is about to fetch or update it, or did so before and has not released a lock since. *)
Definition works_on (f : nat -> conf (list rdata)) (i : nat) (key : bytes) (n : nat) : Prop :=
  exists n0 t0, (n0 <= n)%nat /\ ths (f n0) !! i = Some t0 /\ (reads_value key t0 \/ writes_value key t0) /\
    forall p l m, (n0 <= p < n)%nat -> ~ gives i l m (f p) (f (S p)).
(** At time [n] its next step updates the value. *)
Definition updates_at (f : nat -> conf (list rdata)) (i : nat) (key : bytes) (n : nat) : Prop := exists t, ths (f n) !! i = Some t /\ writes_value key t.

(** The same with the locks of the segments (Shard.v). *)
Definition sexecution {P : Setup} (T : Z -> Prop) (f : nat -> sconf (list rdata)) (N : nat) : Prop := forall n, (n < N)%nat -> mstep T (f n) (f (S n)).
(** In the step from [s] to [s'], a step of goroutine [i], the lock of segment [g] is taken; released. *)
Definition enters {A} (i : nat) (g : seg) (m : mode) (s s' : sconf A) : Prop := sths s' !! i <> sths s !! i /\ acquired m (slk s g) (slk s' g).
Definition leaves {A} (i : nat) (g : seg) (m : mode) (s s' : sconf A) : Prop := sths s' !! i <> sths s !! i /\ released m (slk s g) (slk s' g).
