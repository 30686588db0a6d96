(** Model of the replies on their way out of the process: conn.Write may wait for the client, take only part of the bytes, or fail. *)
From Verif Require Export World.

Section WithParams.
Context {P : Setup}.

(** The outgoing side of a connection (server/handler.go:69-82).  [waiting]: the part of a reply that conn.Write has not been able to hand over to the operating system;
    [arrived]: everything handed over, in order; [broken]: conn.Write reports an error, which is logged and changes nothing else. *)
Record out := mkOut { waiting : bytes; arrived : bytes; broken : bool }.
(** The process (World.v; [written] is what the handler has passed to conn.Write) and the outgoing sides of its connections. *)
Definition flow : Type := world * list out.

Definition writing (os : list out) (i : nat) : bool := match os !! i with Some (mkOut (_ :: _) _ _) => true | _ => false end.
(** The handlers that are inside conn.Write can do nothing else: the process without them. *)
Definition without_hnd (p : peer) : peer :=
  mkPeer (stg p) (mkLink (given (lnk p)) (unread (lnk p)) (ended (lnk p)) (shut (lnk p)) (par (lnk p)) (HGone ENet) (log (lnk p)) (dead (lnk p))) (runs_on p) (written p).
Definition unhandled (os : list out) (x : world) : world :=
  mkW (wsel x) (wcores x) (imap (fun i p => if writing os i then without_hnd p else p) (peers x)) (signal x) (now_is x).
(** conn.Write of [new]: with an error nothing is handed over; otherwise it starts to wait. *)
Definition write (o : out) (new : bytes) : out := if broken o then o else mkOut (waiting o ++ new) (arrived o) false.
Definition written_at (x : world) (i : nat) : bytes := match peers x !! i with Some p => written p | None => [] end.
Definition write_all (os : list out) (x y : world) : list out :=
  imap (fun i o => write o (drop (length (written_at x i)) (written_at y i))) os.

(** The goroutines: a step of the process (World.v) that needs no handler inside conn.Write. *)
Inductive fgo (T : Z -> Prop) : flow -> flow -> Prop :=
| F_go x y os : wstep T x y -> wstep T (unhandled os x) (unhandled os y) -> fgo T (x, os) (y, write_all os x y).
(** Clients and operating system: the operating system takes some of the bytes that wait, as the client reads; or the connection breaks, and the rest of the reply is lost
    with all later ones. *)
Inductive around : flow -> flow -> Prop :=
| A_world x y os : outside x y -> around (x, os) (y, os)
| A_take x os i w1 w2 a : now_is x = Running -> os !! i = Some (mkOut (w1 ++ w2) a false) -> w1 <> [] -> around (x, os) (x, <[i := mkOut w2 (a ++ w1) false]> os)
| A_break x os i w a : now_is x = Running -> os !! i = Some (mkOut w a false) -> around (x, os) (x, <[i := mkOut [] a true]> os).
Definition fboot (sl : nat) (ds : list db) (n : nat) : flow := (boot sl ds n, replicate n (mkOut [] [] false)).
End WithParams.
