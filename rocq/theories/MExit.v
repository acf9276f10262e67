(** * Model of the exit status of the binary (src/main.rs) *)
From Coq Require Import List Bool Arith Lia ZArith.
From Verif Require Import Base Spec MTypes MKernel MPMinimal MLowerBounding MBiOptSat MOll ApiSpec MPrepro MMain MCli.
Import ListNotations.

(** Which writes succeed: the lines before solving, the front and the statistics after it (both
    standard output), messages (standard error).  Every write of one kind is assumed to behave
    in the same way. *)
Record io := mkIo { io_head : bool; io_front : bool; io_err : bool }.

(** How [sub_main] ends *)
Inductive sub_res := SubOk | SubErr | SubPanic | SubNoFuel.

(** main.rs 138-142 the header, 318-327 [handle_termination] (a message on early termination),
    262-316 [post_solve] (the front and the statistics); every failing write is an error of
    [sub_main].  [run] is the run from the parsed instance on ([run_main]). *)
Definition sub_main (w : io) (run : main_res) : sub_res :=
  if negb (io_head w) then SubErr
  else match run with
       | RFront finished _ =>
           if finished || io_err w then if io_front w then SubOk else SubErr else SubErr
       | RErr => SubErr
       | RPanic => SubPanic
       | ROutOfFuel => SubNoFuel
       end.
(** The front that is printed, if any *)
Definition sub_output (a : cli_args) (w : io) (run : main_res) :=
  match sub_main w run with SubOk => cli_output a run | _ => None end.

(** main.rs 123-136 [main]: an error of [sub_main] is written to standard error, then [Ok] is
    returned; only a failure of this write is returned as an error.  The Rust runtime turns
    [Ok] into status 0, an error into status 1 and a panic into status 101. *)
Definition main_status (w : io) (run : main_res) : option nat :=
  match sub_main w run with
  | SubOk => Some 0
  | SubErr => if io_err w then Some 0 else Some 1
  | SubPanic => Some 101
  | SubNoFuel => None
  end.
