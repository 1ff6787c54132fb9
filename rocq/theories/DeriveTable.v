(** The [#[enum_derive]] macro, part 2: the derive functions of /repo/src/derive/** and the ordered
    table of /repo/src/enum_derive.rs:43-171.

    The signatures were extracted from the Rust text by a script; each definition cites the module it
    models. *)

Require Import Coq.Strings.String Coq.Lists.List Coq.Bool.Bool Coq.Arith.Arith.
Require Import Verif.Syntax Verif.Derive.
Import ListNotations.
Open Scope string_scope.
Open Scope list_scope.

(** /repo/src/derive/core/convert.rs:3-16, [NAME]. *)
Definition core_convert_as_ref_NAME : list string := ["AsRef"].
(** /repo/src/derive/core/convert.rs:3-16, [derive]. *)
Definition core_convert_as_ref_derive : derive_fn :=
  by_trait "::core::convert::AsRef" None
    (TraitDef false ["__T: ?Sized"] None []
      [Sig "as_ref" RRef []]).

(** /repo/src/derive/core/convert.rs:18-31, [NAME]. *)
Definition core_convert_as_mut_NAME : list string := ["AsMut"].
(** /repo/src/derive/core/convert.rs:18-31, [derive]. *)
Definition core_convert_as_mut_derive : derive_fn :=
  by_trait "::core::convert::AsMut" None
    (TraitDef false ["__T: ?Sized"] None []
      [Sig "as_mut" RMut []]).

(** /repo/src/derive/core/fmt.rs:40-57, [NAME]. *)
Definition core_fmt_write_NAME : list string := ["fmt::Write"].
(** /repo/src/derive/core/fmt.rs:40-57, [derive]. *)
Definition core_fmt_write_derive : derive_fn :=
  by_trait "::core::fmt::Write" None
    (TraitDef false [] None []
      [Sig "write_str" RMut ["s"];
       Sig "write_char" RMut ["c"];
       Sig "write_fmt" RMut ["args"]]).

(** /repo/src/derive/core/future.rs:3-38, [NAME]. *)
Definition core_future_NAME : list string := ["Future"].
(** /repo/src/derive/core/future.rs:3-38, [derive]. *)
Definition core_future_derive : derive_fn :=
  by_pin "::core::future::Future"
    (TraitDef false [] None ["Output"]
      [])
    [PinMeth "poll" ["cx"] (TRef "::core::future::Future" []) "poll" ["cx"]].

(** /repo/src/derive/core/iter.rs:3-60, [NAME]. *)
Definition core_iter_iterator_NAME : list string := ["Iterator"].
(** /repo/src/derive/core/iter.rs:3-60, [derive]. *)
Definition core_iter_iterator_derive : derive_fn :=
  by_trait "::core::iter::Iterator" None
    (TraitDef false [] None ["Item"]
      [Sig "next" RMut [];
       Sig "size_hint" RRef [];
       Sig "count" ROwn [];
       Sig "last" ROwn [];
       Sig "nth" RMut ["n"];
       Sig "collect" ROwn [];
       Sig "partition" ROwn ["f"];
       Sig "fold" ROwn ["init"; "f"];
       Sig "all" RMut ["f"];
       Sig "any" RMut ["f"];
       Sig "find" RMut ["predicate"];
       Sig "find_map" RMut ["f"];
       Sig "position" RMut ["predicate"]]).

(** /repo/src/derive/core/iter.rs:62-94, [NAME]. *)
Definition core_iter_double_ended_iterator_NAME : list string := ["DoubleEndedIterator"].
(** /repo/src/derive/core/iter.rs:62-94, [derive]. *)
Definition core_iter_double_ended_iterator_derive : derive_fn :=
  by_trait "::core::iter::DoubleEndedIterator" (Some "Item")
    (TraitDef false [] (Some (TRef "::core::iter::Iterator" [])) []
      [Sig "next_back" RMut [];
       Sig "nth_back" RMut ["n"];
       Sig "rfold" ROwn ["init"; "f"];
       Sig "rfind" RMut ["predicate"]]).

(** /repo/src/derive/core/iter.rs:96-115, [NAME]. *)
Definition core_iter_exact_size_iterator_NAME : list string := ["ExactSizeIterator"].
(** /repo/src/derive/core/iter.rs:96-115, [derive]. *)
Definition core_iter_exact_size_iterator_derive : derive_fn :=
  by_trait "::core::iter::ExactSizeIterator" (Some "Item")
    (TraitDef false [] (Some (TRef "::core::iter::Iterator" [])) []
      [Sig "len" RRef []]).

(** /repo/src/derive/core/iter.rs:117-132, [NAME]. *)
Definition core_iter_fused_iterator_NAME : list string := ["FusedIterator"].
(** /repo/src/derive/core/iter.rs:117-132, [derive]. *)
Definition core_iter_fused_iterator_derive : derive_fn :=
  by_trait "::core::iter::FusedIterator" (Some "Item")
    (TraitDef false [] (Some (TRef "::core::iter::Iterator" [])) []
      []).

(** /repo/src/derive/core/iter.rs:135-150, [NAME]. *)
Definition core_iter_trusted_len_NAME : list string := ["TrustedLen"].
(** /repo/src/derive/core/iter.rs:135-150, [derive]. *)
Definition core_iter_trusted_len_derive : derive_fn :=
  by_trait "::core::iter::TrustedLen" (Some "Item")
    (TraitDef true [] (Some (TRef "::core::iter::Iterator" [])) []
      []).

(** /repo/src/derive/core/iter.rs:152-166, [NAME]. *)
Definition core_iter_extend_NAME : list string := ["Extend"].
(** /repo/src/derive/core/iter.rs:152-166, [derive]. *)
Definition core_iter_extend_derive : derive_fn :=
  by_trait "::core::iter::Extend" None
    (TraitDef false ["__A"] None []
      [Sig "extend" RMut ["iter"]]).

(** /repo/src/derive/core/ops.rs:4-18, [NAME]. *)
Definition core_ops_deref_NAME : list string := ["Deref"].
(** /repo/src/derive/core/ops.rs:4-18, [derive]. *)
Definition core_ops_deref_derive : derive_fn :=
  by_trait "::core::ops::Deref" None
    (TraitDef false [] None ["Target"]
      [Sig "deref" RRef []]).

(** /repo/src/derive/core/ops.rs:21-39, [NAME]. *)
Definition core_ops_deref_mut_NAME : list string := ["DerefMut"].
(** /repo/src/derive/core/ops.rs:21-39, [derive]. *)
Definition core_ops_deref_mut_derive : derive_fn :=
  by_trait "::core::ops::DerefMut" (Some "Target")
    (TraitDef false [] (Some (TRef "::core::ops::Deref" [])) []
      [Sig "deref_mut" RMut []]).

(** /repo/src/derive/core/ops.rs:42-56, [NAME]. *)
Definition core_ops_index_NAME : list string := ["Index"].
(** /repo/src/derive/core/ops.rs:42-56, [derive]. *)
Definition core_ops_index_derive : derive_fn :=
  by_trait "::core::ops::Index" None
    (TraitDef false ["__Idx"] None ["Output"]
      [Sig "index" RRef ["index"]]).

(** /repo/src/derive/core/ops.rs:59-77, [NAME]. *)
Definition core_ops_index_mut_NAME : list string := ["IndexMut"].
(** /repo/src/derive/core/ops.rs:59-77, [derive]. *)
Definition core_ops_index_mut_derive : derive_fn :=
  by_trait "::core::ops::IndexMut" (Some "Output")
    (TraitDef false ["__Idx"] (Some (TRef "::core::ops::Index" ["__Idx"])) []
      [Sig "index_mut" RMut ["index"]]).

(** /repo/src/derive/core/ops.rs:80-95, [NAME]. *)
Definition core_ops_range_bounds_NAME : list string := ["RangeBounds"].
(** /repo/src/derive/core/ops.rs:80-95, [derive]. *)
Definition core_ops_range_bounds_derive : derive_fn :=
  by_trait "::core::ops::RangeBounds" None
    (TraitDef false ["__T: ?Sized"] None []
      [Sig "start_bound" RRef [];
       Sig "end_bound" RRef []]).

(** /repo/src/derive/core/ops.rs:98-136, [NAME]. *)
Definition core_ops_coroutine_NAME : list string := ["Coroutine"].
(** /repo/src/derive/core/ops.rs:98-136, [derive]. *)
Definition core_ops_coroutine_derive : derive_fn :=
  by_pin "::core::ops::Coroutine"
    (TraitDef false ["R"] None ["Yield"; "Return"]
      [])
    [PinMeth "resume" ["arg"] (TRef "::core::ops::Coroutine" ["R"]) "resume" ["arg"]].

(** /repo/src/derive/std/io.rs:3-35, [NAME]. *)
Definition std_io_read_NAME : list string := ["Read"; "io::Read"].
(** /repo/src/derive/std/io.rs:3-35, [derive]. *)
Definition std_io_read_derive : derive_fn :=
  by_trait "::std::io::Read" None
    (TraitDef false [] None []
      [Sig "read" RMut ["buf"];
       Sig "read_vectored" RMut ["bufs"];
       Sig "read_to_end" RMut ["buf"];
       Sig "read_to_string" RMut ["buf"];
       Sig "read_exact" RMut ["buf"]]).

(** /repo/src/derive/std/io.rs:37-66, [NAME]. *)
Definition std_io_write_NAME : list string := ["Write"; "io::Write"].
(** /repo/src/derive/std/io.rs:37-66, [derive]. *)
Definition std_io_write_derive : derive_fn :=
  by_trait "::std::io::Write" None
    (TraitDef false [] None []
      [Sig "write" RMut ["buf"];
       Sig "write_vectored" RMut ["bufs"];
       Sig "flush" RMut [];
       Sig "write_all" RMut ["buf"];
       Sig "write_fmt" RMut ["fmt"]]).

(** /repo/src/derive/std/io.rs:68-81, [NAME]. *)
Definition std_io_seek_NAME : list string := ["Seek"; "io::Seek"].
(** /repo/src/derive/std/io.rs:68-81, [derive]. *)
Definition std_io_seek_derive : derive_fn :=
  by_trait "::std::io::Seek" None
    (TraitDef false [] None []
      [Sig "seek" RMut ["pos"]]).

(** /repo/src/derive/std/io.rs:83-108, [NAME]. *)
Definition std_io_buf_read_NAME : list string := ["BufRead"; "io::BufRead"].
(** /repo/src/derive/std/io.rs:83-108, [derive]. *)
Definition std_io_buf_read_derive : derive_fn :=
  by_trait "::std::io::BufRead" None
    (TraitDef false [] None []
      [Sig "fill_buf" RMut [];
       Sig "consume" RMut ["amt"];
       Sig "read_until" RMut ["byte"; "buf"];
       Sig "read_line" RMut ["buf"]]).

(** /repo/src/derive/external/futures03.rs:3-52, [NAME]. *)
Definition futures03_async_buf_read_NAME : list string := ["futures03::AsyncBufRead"].
(** /repo/src/derive/external/futures03.rs:3-52, [derive]. *)
Definition futures03_async_buf_read_derive : derive_fn :=
  by_pin "::futures::io::AsyncBufRead"
    (TraitDef false [] None []
      [])
    [PinMeth "poll_fill_buf" ["cx"] (TRef "::futures::io::AsyncBufRead" []) "poll_fill_buf" ["cx"];
     PinMeth "consume" ["amt"] (TRef "::futures::io::AsyncBufRead" []) "consume" ["amt"]].

(** /repo/src/derive/external/futures03.rs:54-109, [NAME]. *)
Definition futures03_async_read_NAME : list string := ["futures03::AsyncRead"].
(** /repo/src/derive/external/futures03.rs:54-109, [derive]. *)
Definition futures03_async_read_derive : derive_fn :=
  by_pin "::futures::io::AsyncRead"
    (TraitDef false [] None []
      [])
    [PinMeth "poll_read" ["cx"; "buf"] (TRef "::futures::io::AsyncRead" []) "poll_read" ["cx"; "buf"];
     PinMeth "poll_read_vectored" ["cx"; "bufs"] (TRef "::futures::io::AsyncRead" []) "poll_read_vectored" ["cx"; "bufs"]].

(** /repo/src/derive/external/futures03.rs:111-147, [NAME]. *)
Definition futures03_async_seek_NAME : list string := ["futures03::AsyncSeek"].
(** /repo/src/derive/external/futures03.rs:111-147, [derive]. *)
Definition futures03_async_seek_derive : derive_fn :=
  by_pin "::futures::io::AsyncSeek"
    (TraitDef false [] None []
      [])
    [PinMeth "poll_seek" ["cx"; "pos"] (TRef "::futures::io::AsyncSeek" []) "poll_seek" ["cx"; "pos"]].

(** /repo/src/derive/external/futures03.rs:149-238, [NAME]. *)
Definition futures03_async_write_NAME : list string := ["futures03::AsyncWrite"].
(** /repo/src/derive/external/futures03.rs:149-238, [derive]. *)
Definition futures03_async_write_derive : derive_fn :=
  by_pin "::futures::io::AsyncWrite"
    (TraitDef false [] None []
      [])
    [PinMeth "poll_write" ["cx"; "buf"] (TRef "::futures::io::AsyncWrite" []) "poll_write" ["cx"; "buf"];
     PinMeth "poll_write_vectored" ["cx"; "bufs"] (TRef "::futures::io::AsyncWrite" []) "poll_write_vectored" ["cx"; "bufs"];
     PinMeth "poll_flush" ["cx"] (TRef "::futures::io::AsyncWrite" []) "poll_flush" ["cx"];
     PinMeth "poll_close" ["cx"] (TRef "::futures::io::AsyncWrite" []) "poll_close" ["cx"]].

(** /repo/src/derive/external/futures03.rs:240-328, [NAME]. *)
Definition futures03_sink_NAME : list string := ["futures03::Sink"].
(** /repo/src/derive/external/futures03.rs:240-328, [derive]. *)
Definition futures03_sink_derive : derive_fn :=
  by_pin "::futures::sink::Sink"
    (TraitDef false ["__Item"] None ["Error"]
      [])
    [PinMeth "poll_ready" ["cx"] (TRef "::futures::sink::Sink" ["__Item"]) "poll_ready" ["cx"];
     PinMeth "start_send" ["item"] (TRef "::futures::sink::Sink" ["__Item"]) "start_send" ["item"];
     PinMeth "poll_flush" ["cx"] (TRef "::futures::sink::Sink" ["__Item"]) "poll_flush" ["cx"];
     PinMeth "poll_close" ["cx"] (TRef "::futures::sink::Sink" ["__Item"]) "poll_close" ["cx"]].

(** /repo/src/derive/external/futures03.rs:330-369, [NAME]. *)
Definition futures03_stream_NAME : list string := ["futures03::Stream"].
(** /repo/src/derive/external/futures03.rs:330-369, [derive]. *)
Definition futures03_stream_derive : derive_fn :=
  by_pin "::futures::stream::Stream"
    (TraitDef false [] None ["Item"]
      [Sig "size_hint" RRef []])
    [PinMeth "poll_next" ["cx"] (TRef "::futures::stream::Stream" []) "poll_next" ["cx"]].

(** /repo/src/derive/external/futures01.rs:3-18, [NAME]. *)
Definition futures01_future_NAME : list string := ["futures01::Future"].
(** /repo/src/derive/external/futures01.rs:3-18, [derive]. *)
Definition futures01_future_derive : derive_fn :=
  by_trait "::futures::future::Future" None
    (TraitDef false [] None ["Item"; "Error"]
      [Sig "poll" RMut []]).

(** /repo/src/derive/external/futures01.rs:20-37, [NAME]. *)
Definition futures01_stream_NAME : list string := ["futures01::Stream"].
(** /repo/src/derive/external/futures01.rs:20-37, [derive]. *)
Definition futures01_stream_derive : derive_fn :=
  by_trait "::futures::stream::Stream" None
    (TraitDef false [] None ["Item"; "Error"]
      [Sig "poll" RMut []]).

(** /repo/src/derive/external/futures01.rs:39-61, [NAME]. *)
Definition futures01_sink_NAME : list string := ["futures01::Sink"].
(** /repo/src/derive/external/futures01.rs:39-61, [derive]. *)
Definition futures01_sink_derive : derive_fn :=
  by_trait "::futures::sink::Sink" None
    (TraitDef false [] None ["SinkItem"; "SinkError"]
      [Sig "start_send" RMut ["item"];
       Sig "poll_complete" RMut [];
       Sig "close" RMut []]).

(** /repo/src/derive/external/rayon.rs:3-21, [NAME]. *)
Definition rayon_par_iter_NAME : list string := ["rayon::ParallelIterator"].
(** /repo/src/derive/external/rayon.rs:3-21, [derive]. *)
Definition rayon_par_iter_derive : derive_fn :=
  by_trait "::rayon::iter::ParallelIterator" None
    (TraitDef false [] None ["Item"]
      [Sig "drive_unindexed" ROwn ["consumer"];
       Sig "opt_len" RRef []]).

(** /repo/src/derive/external/rayon.rs:23-49, [NAME]. *)
Definition rayon_indexed_par_iter_NAME : list string := ["rayon::IndexedParallelIterator"].
(** /repo/src/derive/external/rayon.rs:23-49, [derive]. *)
Definition rayon_indexed_par_iter_derive : derive_fn :=
  by_trait "::rayon::iter::IndexedParallelIterator" (Some "Item")
    (TraitDef false [] (Some (TRef "::rayon::iter::ParallelIterator" [])) []
      [Sig "drive" ROwn ["consumer"];
       Sig "len" RRef [];
       Sig "with_producer" ROwn ["callback"]]).

(** /repo/src/derive/external/rayon.rs:51-66, [NAME]. *)
Definition rayon_par_extend_NAME : list string := ["rayon::ParallelExtend"].
(** /repo/src/derive/external/rayon.rs:51-66, [derive]. *)
Definition rayon_par_extend_derive : derive_fn :=
  by_trait "::rayon::iter::ParallelExtend" None
    (TraitDef false ["__T: Send"] None []
      [Sig "par_extend" RMut ["par_iter"]]).

(** /repo/src/derive/external/serde.rs:3-21, [NAME]. *)
Definition serde_serialize_NAME : list string := ["serde::Serialize"].
(** /repo/src/derive/external/serde.rs:3-21, [derive]. *)
Definition serde_serialize_derive : derive_fn :=
  by_trait "::serde::ser::Serialize" None
    (TraitDef false [] None []
      [Sig "serialize" RRef ["serializer"]]).

(** /repo/src/derive/external/tokio1.rs:3-50, [NAME]. *)
Definition tokio1_async_buf_read_NAME : list string := ["tokio1::AsyncBufRead"].
(** /repo/src/derive/external/tokio1.rs:3-50, [derive]. *)
Definition tokio1_async_buf_read_derive : derive_fn :=
  by_pin "::tokio::io::AsyncBufRead"
    (TraitDef false [] None []
      [])
    [PinMeth "poll_fill_buf" ["cx"] (TRef "::tokio::io::AsyncBufRead" []) "poll_fill_buf" ["cx"];
     PinMeth "consume" ["amt"] (TRef "::tokio::io::AsyncBufRead" []) "consume" ["amt"]].

(** /repo/src/derive/external/tokio1.rs:52-87, [NAME]. *)
Definition tokio1_async_read_NAME : list string := ["tokio1::AsyncRead"].
(** /repo/src/derive/external/tokio1.rs:52-87, [derive]. *)
Definition tokio1_async_read_derive : derive_fn :=
  by_pin "::tokio::io::AsyncRead"
    (TraitDef false [] None []
      [])
    [PinMeth "poll_read" ["cx"; "buf"] (TRef "::tokio::io::AsyncRead" []) "poll_read" ["cx"; "buf"]].

(** /repo/src/derive/external/tokio1.rs:89-139, [NAME]. *)
Definition tokio1_async_seek_NAME : list string := ["tokio1::AsyncSeek"].
(** /repo/src/derive/external/tokio1.rs:89-139, [derive]. *)
Definition tokio1_async_seek_derive : derive_fn :=
  by_pin "::tokio::io::AsyncSeek"
    (TraitDef false [] None []
      [])
    [PinMeth "start_seek" ["pos"] (TRef "::tokio::io::AsyncSeek" []) "start_seek" ["pos"];
     PinMeth "poll_complete" ["cx"] (TRef "::tokio::io::AsyncSeek" []) "poll_complete" ["cx"]].

(** /repo/src/derive/external/tokio1.rs:141-228, [NAME]. *)
Definition tokio1_async_write_NAME : list string := ["tokio1::AsyncWrite"].
(** /repo/src/derive/external/tokio1.rs:141-228, [derive]. *)
Definition tokio1_async_write_derive : derive_fn :=
  by_pin "::tokio::io::AsyncWrite"
    (TraitDef false [] None []
      [Sig "is_write_vectored" RRef []])
    [PinMeth "poll_write" ["cx"; "buf"] (TRef "::tokio::io::AsyncWrite" []) "poll_write" ["cx"; "buf"];
     PinMeth "poll_flush" ["cx"] (TRef "::tokio::io::AsyncWrite" []) "poll_flush" ["cx"];
     PinMeth "poll_shutdown" ["cx"] (TRef "::tokio::io::AsyncWrite" []) "poll_shutdown" ["cx"];
     PinMeth "poll_write_vectored" ["cx"; "bufs"] (TRef "::tokio::io::AsyncWrite" []) "poll_write_vectored" ["cx"; "bufs"]].

(** /repo/src/derive/external/tokio03.rs:3-50, [NAME]. *)
Definition tokio03_async_buf_read_NAME : list string := ["tokio03::AsyncBufRead"].
(** /repo/src/derive/external/tokio03.rs:3-50, [derive]. *)
Definition tokio03_async_buf_read_derive : derive_fn :=
  by_pin "::tokio::io::AsyncBufRead"
    (TraitDef false [] None []
      [])
    [PinMeth "poll_fill_buf" ["cx"] (TRef "::tokio::io::AsyncBufRead" []) "poll_fill_buf" ["cx"];
     PinMeth "consume" ["amt"] (TRef "::tokio::io::AsyncBufRead" []) "consume" ["amt"]].

(** /repo/src/derive/external/tokio03.rs:52-87, [NAME]. *)
Definition tokio03_async_read_NAME : list string := ["tokio03::AsyncRead"].
(** /repo/src/derive/external/tokio03.rs:52-87, [derive]. *)
Definition tokio03_async_read_derive : derive_fn :=
  by_pin "::tokio::io::AsyncRead"
    (TraitDef false [] None []
      [])
    [PinMeth "poll_read" ["cx"; "buf"] (TRef "::tokio::io::AsyncRead" []) "poll_read" ["cx"; "buf"]].

(** /repo/src/derive/external/tokio03.rs:89-139, [NAME]. *)
Definition tokio03_async_seek_NAME : list string := ["tokio03::AsyncSeek"].
(** /repo/src/derive/external/tokio03.rs:89-139, [derive]. *)
Definition tokio03_async_seek_derive : derive_fn :=
  by_pin "::tokio::io::AsyncSeek"
    (TraitDef false [] None []
      [])
    [PinMeth "start_seek" ["pos"] (TRef "::tokio::io::AsyncSeek" []) "start_seek" ["pos"];
     PinMeth "poll_complete" ["cx"] (TRef "::tokio::io::AsyncSeek" []) "poll_complete" ["cx"]].

(** /repo/src/derive/external/tokio03.rs:141-208, [NAME]. *)
Definition tokio03_async_write_NAME : list string := ["tokio03::AsyncWrite"].
(** /repo/src/derive/external/tokio03.rs:141-208, [derive]. *)
Definition tokio03_async_write_derive : derive_fn :=
  by_pin "::tokio::io::AsyncWrite"
    (TraitDef false [] None []
      [])
    [PinMeth "poll_write" ["cx"; "buf"] (TRef "::tokio::io::AsyncWrite" []) "poll_write" ["cx"; "buf"];
     PinMeth "poll_flush" ["cx"] (TRef "::tokio::io::AsyncWrite" []) "poll_flush" ["cx"];
     PinMeth "poll_shutdown" ["cx"] (TRef "::tokio::io::AsyncWrite" []) "poll_shutdown" ["cx"]].

(** /repo/src/derive/external/tokio02.rs:3-50, [NAME]. *)
Definition tokio02_async_buf_read_NAME : list string := ["tokio02::AsyncBufRead"].
(** /repo/src/derive/external/tokio02.rs:3-50, [derive]. *)
Definition tokio02_async_buf_read_derive : derive_fn :=
  by_pin "::tokio::io::AsyncBufRead"
    (TraitDef false [] None []
      [])
    [PinMeth "poll_fill_buf" ["cx"] (TRef "::tokio::io::AsyncBufRead" []) "poll_fill_buf" ["cx"];
     PinMeth "consume" ["amt"] (TRef "::tokio::io::AsyncBufRead" []) "consume" ["amt"]].

(** /repo/src/derive/external/tokio02.rs:52-101, [NAME]. *)
Definition tokio02_async_read_NAME : list string := ["tokio02::AsyncRead"].
(** /repo/src/derive/external/tokio02.rs:52-101, [derive]. *)
Definition tokio02_async_read_derive : derive_fn :=
  by_pin "::tokio::io::AsyncRead"
    (TraitDef false [] None []
      [Sig "prepare_uninitialized_buffer" RRef ["buf"]])
    [PinMeth "poll_read" ["cx"; "buf"] (TRef "::tokio::io::AsyncRead" []) "poll_read" ["cx"; "buf"]].

(** /repo/src/derive/external/tokio02.rs:103-154, [NAME]. *)
Definition tokio02_async_seek_NAME : list string := ["tokio02::AsyncSeek"].
(** /repo/src/derive/external/tokio02.rs:103-154, [derive]. *)
Definition tokio02_async_seek_derive : derive_fn :=
  by_pin "::tokio::io::AsyncSeek"
    (TraitDef false [] None []
      [])
    [PinMeth "start_seek" ["cx"; "pos"] (TRef "::tokio::io::AsyncSeek" []) "start_seek" ["cx"; "pos"];
     PinMeth "poll_complete" ["cx"] (TRef "::tokio::io::AsyncSeek" []) "poll_complete" ["cx"]].

(** /repo/src/derive/external/tokio02.rs:156-232, [NAME]. *)
Definition tokio02_async_write_NAME : list string := ["tokio02::AsyncWrite"].
(** /repo/src/derive/external/tokio02.rs:156-232, [derive]. *)
Definition tokio02_async_write_derive : derive_fn :=
  by_pin "::tokio::io::AsyncWrite"
    (TraitDef false [] None []
      [])
    [PinMeth "poll_write" ["cx"; "buf"] (TRef "::tokio::io::AsyncWrite" []) "poll_write" ["cx"; "buf"];
     PinMeth "poll_flush" ["cx"] (TRef "::tokio::io::AsyncWrite" []) "poll_flush" ["cx"];
     PinMeth "poll_shutdown" ["cx"] (TRef "::tokio::io::AsyncWrite" []) "poll_shutdown" ["cx"]].

(** /repo/src/derive/external/tokio01.rs:3-27, [NAME]. *)
Definition tokio01_async_read_NAME : list string := ["tokio01::AsyncRead"].
(** /repo/src/derive/external/tokio01.rs:3-27, [derive]. *)
Definition tokio01_async_read_derive : derive_fn :=
  by_trait "::tokio::io::AsyncRead" None
    (TraitDef false [] (Some (TRef "::std::io::Read" [])) []
      [Sig "prepare_uninitialized_buffer" RRef ["buf"];
       Sig "poll_read" RMut ["buf"]]).

(** /repo/src/derive/external/tokio01.rs:29-50, [NAME]. *)
Definition tokio01_async_write_NAME : list string := ["tokio01::AsyncWrite"].
(** /repo/src/derive/external/tokio01.rs:29-50, [derive]. *)
Definition tokio01_async_write_derive : derive_fn :=
  by_trait "::tokio::io::AsyncWrite" None
    (TraitDef false [] (Some (TRef "::std::io::Write" [])) []
      [Sig "poll_write" RMut ["buf"];
       Sig "poll_flush" RMut [];
       Sig "shutdown" RMut []]).

(** /repo/src/derive/external/http_body1.rs:3-48, [NAME]. *)
Definition http_body1_body_NAME : list string := ["http_body1::Body"].
(** /repo/src/derive/external/http_body1.rs:3-48, [derive]. *)
Definition http_body1_body_derive : derive_fn :=
  by_pin "::http_body::Body"
    (TraitDef false [] None ["Data"; "Error"]
      [Sig "is_end_stream" RRef [];
       Sig "size_hint" RRef []])
    [PinMeth "poll_frame" ["cx"] (TRef "::http_body::Body" []) "poll_frame" ["cx"]].

(** /repo/src/derive/core/fmt.rs:3-21,22, [NAME]. *)
Definition core_fmt_debug_NAME : list string := ["Debug"; "fmt::Debug"].
(** /repo/src/derive/core/fmt.rs:3-21,22, [derive]. *)
Definition core_fmt_debug_derive : derive_fn := derive_fmt "Debug".

(** /repo/src/derive/core/fmt.rs:3-21,23, [NAME]. *)
Definition core_fmt_display_NAME : list string := ["Display"; "fmt::Display"].
(** /repo/src/derive/core/fmt.rs:3-21,23, [derive]. *)
Definition core_fmt_display_derive : derive_fn := derive_fmt "Display".

(** /repo/src/derive/core/fmt.rs:3-21,26, [NAME]. *)
Definition core_fmt_binary_NAME : list string := ["fmt::Binary"].
(** /repo/src/derive/core/fmt.rs:3-21,26, [derive]. *)
Definition core_fmt_binary_derive : derive_fn := derive_fmt "Binary".

(** /repo/src/derive/core/fmt.rs:3-21,28, [NAME]. *)
Definition core_fmt_lower_exp_NAME : list string := ["fmt::LowerExp"].
(** /repo/src/derive/core/fmt.rs:3-21,28, [derive]. *)
Definition core_fmt_lower_exp_derive : derive_fn := derive_fmt "LowerExp".

(** /repo/src/derive/core/fmt.rs:3-21,30, [NAME]. *)
Definition core_fmt_lower_hex_NAME : list string := ["fmt::LowerHex"].
(** /repo/src/derive/core/fmt.rs:3-21,30, [derive]. *)
Definition core_fmt_lower_hex_derive : derive_fn := derive_fmt "LowerHex".

(** /repo/src/derive/core/fmt.rs:3-21,32, [NAME]. *)
Definition core_fmt_octal_NAME : list string := ["fmt::Octal"].
(** /repo/src/derive/core/fmt.rs:3-21,32, [derive]. *)
Definition core_fmt_octal_derive : derive_fn := derive_fmt "Octal".

(** /repo/src/derive/core/fmt.rs:3-21,34, [NAME]. *)
Definition core_fmt_pointer_NAME : list string := ["fmt::Pointer"].
(** /repo/src/derive/core/fmt.rs:3-21,34, [derive]. *)
Definition core_fmt_pointer_derive : derive_fn := derive_fmt "Pointer".

(** /repo/src/derive/core/fmt.rs:3-21,36, [NAME]. *)
Definition core_fmt_upper_exp_NAME : list string := ["fmt::UpperExp"].
(** /repo/src/derive/core/fmt.rs:3-21,36, [derive]. *)
Definition core_fmt_upper_exp_derive : derive_fn := derive_fmt "UpperExp".

(** /repo/src/derive/core/fmt.rs:3-21,38, [NAME]. *)
Definition core_fmt_upper_hex_NAME : list string := ["fmt::UpperHex"].
(** /repo/src/derive/core/fmt.rs:3-21,38, [derive]. *)
Definition core_fmt_upper_hex_derive : derive_fn := derive_fmt "UpperHex".

(** /repo/src/derive/core/ops.rs:138-164, [NAME]. *)
Definition core_ops_fn__NAME : list string := ["Fn"].
(** The common start of the three [Fn] derives, /repo/src/derive/core/ops.rs:147-155, 175-183,
    203-211: trait [path<(__T,)>], parameters [__T] and [__U], and for every field the bound
    [path(__T) -> __U], that is [path<(__T,), Output = __U>]. *)
Definition fn_impl (path : string) (d : enum_data) : gimpl :=
  let tr := TRef path ["(__T,)"] in
  let i := push_param ["__U"] (push_param ["__T"] (set_trait tr (impl_new d))) in
  fold_left (fun i f => push_where (WBound f tr [("Output", AParam "__U")]) i) (field_types d) i.
(** /repo/src/derive/core/ops.rs:138-164, [derive]. *)
Definition core_ops_fn__derive : derive_fn :=
  fun d => inr (false, [GImpl (push_method d (Sig "call" RRef ["args"]) (fn_impl "::core::ops::Fn" d))]).

(** /repo/src/derive/core/ops.rs:166-192, [NAME]. *)
Definition core_ops_fn_mut_NAME : list string := ["FnMut"].
(** /repo/src/derive/core/ops.rs:166-192, [derive]. *)
Definition core_ops_fn_mut_derive : derive_fn :=
  fun d =>
    inr (false, [GImpl (push_method d (Sig "call_mut" RMut ["args"]) (fn_impl "::core::ops::FnMut" d))]).

(** /repo/src/derive/core/ops.rs:194-223, [NAME]. *)
Definition core_ops_fn_once_NAME : list string := ["FnOnce"].
(** /repo/src/derive/core/ops.rs:194-223, [derive]. *)
Definition core_ops_fn_once_derive : derive_fn :=
  fun d =>
    inr (false, [GImpl (append_items d ["Output"] [Sig "call_once" ROwn ["args"]]
                          (fn_impl "::core::ops::FnOnce" d))]).

(** /repo/src/derive/std/error.rs:5, [NAME]. *)
Definition std_error_NAME : list string := ["Error"].
(** The method [source] of /repo/src/derive/std/error.rs:9-16. *)
Definition source_method (d : enum_data) : gmethod :=
  GMethod "source" RRef [] SSelf
    (map (fun v => MArm (d_ident d) v (BSome BX)) (variant_idents d)).
(** /repo/src/derive/std/error.rs:7-30, [derive]. *)
Definition std_error_derive : derive_fn :=
  fun d =>
    let i := from_trait d "::std::error::Error" None
               (TraitDef false [] None [] [Sig "description" RRef []]) in
    let i := fold_left (fun i f => push_where (WStatic f) i) (field_types d) i in
    inr (false, [GImpl (push_item (source_method d) i)]).

(** /repo/src/derive/ty_impls/transpose.rs:7, [NAME]. *)
Definition ty_impls_transpose_NAME : list string := ["Transpose"].
(** /repo/src/derive/ty_impls/transpose.rs:10-18, [derive]. *)
Definition ty_impls_transpose_derive : derive_fn :=
  fun d =>
    if check_fields d then
      inr (false, [GImpl (transpose_option d); GImpl (transpose_result d);
                   GImpl (transpose_ok d); GImpl (transpose_err d)])
    else inl "all fields need to be generics".

(** ** The table *)

(** One line of [match_derive!], /repo/src/enum_derive.rs:31-41: the feature that enables it, the names
    and the derive function. *)
Record entry := Entry {
  en_feature : option string;
  en_names : list string;
  en_derive : derive_fn
}.

(** [match_derive!], /repo/src/enum_derive.rs:43-171, in order. *)
Definition derives : list entry :=
  [Entry (Some "convert") core_convert_as_mut_NAME core_convert_as_mut_derive;
   Entry (Some "convert") core_convert_as_ref_NAME core_convert_as_ref_derive;
   Entry None core_fmt_debug_NAME core_fmt_debug_derive;
   Entry None core_fmt_display_NAME core_fmt_display_derive;
   Entry (Some "fmt") core_fmt_pointer_NAME core_fmt_pointer_derive;
   Entry (Some "fmt") core_fmt_binary_NAME core_fmt_binary_derive;
   Entry (Some "fmt") core_fmt_octal_NAME core_fmt_octal_derive;
   Entry (Some "fmt") core_fmt_upper_hex_NAME core_fmt_upper_hex_derive;
   Entry (Some "fmt") core_fmt_lower_hex_NAME core_fmt_lower_hex_derive;
   Entry (Some "fmt") core_fmt_upper_exp_NAME core_fmt_upper_exp_derive;
   Entry (Some "fmt") core_fmt_lower_exp_NAME core_fmt_lower_exp_derive;
   Entry None core_fmt_write_NAME core_fmt_write_derive;
   Entry None core_iter_iterator_NAME core_iter_iterator_derive;
   Entry None core_iter_double_ended_iterator_NAME core_iter_double_ended_iterator_derive;
   Entry None core_iter_exact_size_iterator_NAME core_iter_exact_size_iterator_derive;
   Entry None core_iter_fused_iterator_NAME core_iter_fused_iterator_derive;
   Entry (Some "trusted_len") core_iter_trusted_len_NAME core_iter_trusted_len_derive;
   Entry None core_iter_extend_NAME core_iter_extend_derive;
   Entry (Some "ops") core_ops_deref_NAME core_ops_deref_derive;
   Entry (Some "ops") core_ops_deref_mut_NAME core_ops_deref_mut_derive;
   Entry (Some "ops") core_ops_index_NAME core_ops_index_derive;
   Entry (Some "ops") core_ops_index_mut_NAME core_ops_index_mut_derive;
   Entry (Some "ops") core_ops_range_bounds_NAME core_ops_range_bounds_derive;
   Entry (Some "fn_traits") core_ops_fn__NAME core_ops_fn__derive;
   Entry (Some "fn_traits") core_ops_fn_mut_NAME core_ops_fn_mut_derive;
   Entry (Some "fn_traits") core_ops_fn_once_NAME core_ops_fn_once_derive;
   Entry (Some "coroutine_trait") core_ops_coroutine_NAME core_ops_coroutine_derive;
   Entry None core_future_NAME core_future_derive;
   Entry (Some "std") std_io_read_NAME std_io_read_derive;
   Entry (Some "std") std_io_buf_read_NAME std_io_buf_read_derive;
   Entry (Some "std") std_io_seek_NAME std_io_seek_derive;
   Entry (Some "std") std_io_write_NAME std_io_write_derive;
   Entry (Some "std") std_error_NAME std_error_derive;
   Entry (Some "transpose_methods") ty_impls_transpose_NAME ty_impls_transpose_derive;
   Entry (Some "futures03") futures03_stream_NAME futures03_stream_derive;
   Entry (Some "futures03") futures03_sink_NAME futures03_sink_derive;
   Entry (Some "futures03") futures03_async_read_NAME futures03_async_read_derive;
   Entry (Some "futures03") futures03_async_write_NAME futures03_async_write_derive;
   Entry (Some "futures03") futures03_async_seek_NAME futures03_async_seek_derive;
   Entry (Some "futures03") futures03_async_buf_read_NAME futures03_async_buf_read_derive;
   Entry (Some "futures01") futures01_future_NAME futures01_future_derive;
   Entry (Some "futures01") futures01_stream_NAME futures01_stream_derive;
   Entry (Some "futures01") futures01_sink_NAME futures01_sink_derive;
   Entry (Some "rayon") rayon_par_iter_NAME rayon_par_iter_derive;
   Entry (Some "rayon") rayon_indexed_par_iter_NAME rayon_indexed_par_iter_derive;
   Entry (Some "rayon") rayon_par_extend_NAME rayon_par_extend_derive;
   Entry (Some "serde") serde_serialize_NAME serde_serialize_derive;
   Entry (Some "tokio1") tokio1_async_read_NAME tokio1_async_read_derive;
   Entry (Some "tokio1") tokio1_async_write_NAME tokio1_async_write_derive;
   Entry (Some "tokio1") tokio1_async_seek_NAME tokio1_async_seek_derive;
   Entry (Some "tokio1") tokio1_async_buf_read_NAME tokio1_async_buf_read_derive;
   Entry (Some "tokio03") tokio03_async_read_NAME tokio03_async_read_derive;
   Entry (Some "tokio03") tokio03_async_write_NAME tokio03_async_write_derive;
   Entry (Some "tokio03") tokio03_async_seek_NAME tokio03_async_seek_derive;
   Entry (Some "tokio03") tokio03_async_buf_read_NAME tokio03_async_buf_read_derive;
   Entry (Some "tokio02") tokio02_async_read_NAME tokio02_async_read_derive;
   Entry (Some "tokio02") tokio02_async_write_NAME tokio02_async_write_derive;
   Entry (Some "tokio02") tokio02_async_seek_NAME tokio02_async_seek_derive;
   Entry (Some "tokio02") tokio02_async_buf_read_NAME tokio02_async_buf_read_derive;
   Entry (Some "tokio01") tokio01_async_read_NAME tokio01_async_read_derive;
   Entry (Some "tokio01") tokio01_async_write_NAME tokio01_async_write_derive;
   Entry (Some "http_body1") http_body1_body_NAME http_body1_body_derive].

(** A set of enabled crate features ([cfg(feature = "..")]). *)
Definition features := string -> bool.

(** [#[cfg(feature = "f")]] on a line of a table, or no such attribute
    (/repo/src/enum_derive.rs:45). *)
Definition enabled (feat : features) (f : option string) : bool :=
  match f with None => true | Some n => feat n end.

(** [NAME.iter().any(|name| *name == s)], /repo/src/enum_derive.rs:36. *)
Definition names_it (names : list string) (s : string) : bool := existsb (fun n => n =? s) names.

(** [get_derive], /repo/src/enum_derive.rs:31-174: the first enabled line that has the name. *)
Definition get_derive (feat : features) (s : string) : option derive_fn :=
  match find (fun e => enabled feat (en_feature e) && names_it (en_names e) s) derives with
  | Some e => Some (en_derive e)
  | None => None
  end.
