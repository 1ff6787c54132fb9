(** Specification: what an implementation of each supported trait has to contain.

    Written from the documentation of the traits (the standard library and the crates futures 0.1 and 0.3,
    rayon 1, serde 1, tokio 0.1 to 1 and http-body 1), not from /repo. *)

Require Import Coq.Strings.String Coq.Lists.List.
Require Import Verif.Syntax Verif.Derive Verif.EnumDerive Verif.DeriveSpec.
Import ListNotations.
Open Scope string_scope.
Open Scope list_scope.

(** What a trait demands: whether it is an unsafe trait, its associated types, and its required methods with the
    receiver and the number of other parameters. *)
Record demand := Demand {
  dm_unsafe : bool;
  dm_types : list string;
  dm_methods : list (string * recv * nat)
}.

(** A trait with one required method. *)
Definition one (m : string) (r : recv) (n : nat) : demand := Demand false [] [(m, r, n)].
(** A trait without members that are required. *)
Definition nothing : demand := Demand false [] [].

(** By the first name in the documentation. *)
Definition demands : list (string * demand) :=
  [("Iterator", Demand false ["Item"] [("next", RMut, 0)]);
   ("DoubleEndedIterator", one "next_back" RMut 0);
   ("ExactSizeIterator", nothing);
   ("FusedIterator", nothing);
   ("Extend", one "extend" RMut 1);
   ("TrustedLen", Demand true [] []);
   ("Future", Demand false ["Output"] [("poll", RPin, 1)]);
   ("Read", one "read" RMut 1);
   ("BufRead", Demand false [] [("fill_buf", RMut, 0); ("consume", RMut, 1)]);
   ("Write", Demand false [] [("write", RMut, 1); ("flush", RMut, 0)]);
   ("Seek", one "seek" RMut 1);
   ("Deref", Demand false ["Target"] [("deref", RRef, 0)]);
   ("DerefMut", one "deref_mut" RMut 0);
   ("Index", Demand false ["Output"] [("index", RRef, 1)]);
   ("IndexMut", one "index_mut" RMut 1);
   ("RangeBounds", Demand false [] [("start_bound", RRef, 0); ("end_bound", RRef, 0)]);
   ("Fn", one "call" RRef 1);
   ("FnMut", one "call_mut" RMut 1);
   ("FnOnce", Demand false ["Output"] [("call_once", ROwn, 1)]);
   ("Coroutine", Demand false ["Yield"; "Return"] [("resume", RPin, 1)]);
   ("AsRef", one "as_ref" RRef 0);
   ("AsMut", one "as_mut" RMut 0);
   ("Debug", one "fmt" RRef 1);
   ("Display", one "fmt" RRef 1);
   ("fmt::Binary", one "fmt" RRef 1);
   ("fmt::LowerExp", one "fmt" RRef 1);
   ("fmt::LowerHex", one "fmt" RRef 1);
   ("fmt::Octal", one "fmt" RRef 1);
   ("fmt::Pointer", one "fmt" RRef 1);
   ("fmt::UpperExp", one "fmt" RRef 1);
   ("fmt::UpperHex", one "fmt" RRef 1);
   ("fmt::Write", one "write_str" RMut 1);
   ("Error", nothing);
   ("futures03::Stream", Demand false ["Item"] [("poll_next", RPin, 1)]);
   ("futures03::Sink", Demand false ["Error"] [("poll_ready", RPin, 1); ("start_send", RPin, 1);
                                               ("poll_flush", RPin, 1); ("poll_close", RPin, 1)]);
   ("futures03::AsyncRead", one "poll_read" RPin 2);
   ("futures03::AsyncWrite", Demand false [] [("poll_write", RPin, 2); ("poll_flush", RPin, 1);
                                              ("poll_close", RPin, 1)]);
   ("futures03::AsyncSeek", one "poll_seek" RPin 2);
   ("futures03::AsyncBufRead", Demand false [] [("poll_fill_buf", RPin, 1); ("consume", RPin, 1)]);
   ("futures01::Future", Demand false ["Item"; "Error"] [("poll", RMut, 0)]);
   ("futures01::Stream", Demand false ["Item"; "Error"] [("poll", RMut, 0)]);
   ("futures01::Sink", Demand false ["SinkItem"; "SinkError"] [("start_send", RMut, 1); ("poll_complete", RMut, 0)]);
   ("rayon::ParallelIterator", Demand false ["Item"] [("drive_unindexed", ROwn, 1)]);
   ("rayon::IndexedParallelIterator", Demand false [] [("len", RRef, 0); ("drive", ROwn, 1);
                                                       ("with_producer", ROwn, 1)]);
   ("rayon::ParallelExtend", one "par_extend" RMut 1);
   ("serde::Serialize", one "serialize" RRef 1);
   ("tokio1::AsyncRead", one "poll_read" RPin 2);
   ("tokio1::AsyncWrite", Demand false [] [("poll_write", RPin, 2); ("poll_flush", RPin, 1);
                                           ("poll_shutdown", RPin, 1)]);
   ("tokio1::AsyncSeek", Demand false [] [("start_seek", RPin, 1); ("poll_complete", RPin, 1)]);
   ("tokio1::AsyncBufRead", Demand false [] [("poll_fill_buf", RPin, 1); ("consume", RPin, 1)]);
   ("tokio03::AsyncRead", one "poll_read" RPin 2);
   ("tokio03::AsyncWrite", Demand false [] [("poll_write", RPin, 2); ("poll_flush", RPin, 1);
                                            ("poll_shutdown", RPin, 1)]);
   ("tokio03::AsyncSeek", Demand false [] [("start_seek", RPin, 1); ("poll_complete", RPin, 1)]);
   ("tokio03::AsyncBufRead", Demand false [] [("poll_fill_buf", RPin, 1); ("consume", RPin, 1)]);
   ("tokio02::AsyncRead", one "poll_read" RPin 2);
   ("tokio02::AsyncWrite", Demand false [] [("poll_write", RPin, 2); ("poll_flush", RPin, 1);
                                            ("poll_shutdown", RPin, 1)]);
   ("tokio02::AsyncSeek", Demand false [] [("start_seek", RPin, 2); ("poll_complete", RPin, 1)]);
   ("tokio02::AsyncBufRead", Demand false [] [("poll_fill_buf", RPin, 1); ("consume", RPin, 1)]);
   ("tokio01::AsyncRead", nothing);
   ("tokio01::AsyncWrite", one "shutdown" RMut 0);
   ("http_body1::Body", Demand false ["Data"; "Error"] [("poll_frame", RPin, 1)])].

(** The implementation meets the demand: it is [unsafe] if and only if the trait is, has all associated types and
    no others, has every required method with this receiver and number of parameters, and no method twice. *)
Definition meets (g : gimpl) (d : demand) : Prop :=
  gi_unsafe g = dm_unsafe d
  /\ map fst (gi_assoc g) = dm_types d
  /\ (forall m r n, In (m, r, n) (dm_methods d) ->
        exists x, In x (gi_methods g) /\ gm_name x = m /\ gm_recv x = r /\ length (gm_params x) = n)
  /\ NoDup (map gm_name (gi_methods g)).
