(** Model of /repo/qrpc.go: commands and frame flags. *)
From Verif Require Import Model.GoBase.

(** qrpc.go:6-11  [type Cmd uint32], [MaxCmd = 0xffffff] *)
Definition Cmd := N.
(** qrpc.go:6-11. *)
Definition MaxCmd : N := 0xffffff.

(** qrpc.go:13-16  [uint8(c >> 16)] *)
Definition Opaque (c : Cmd) : N := u8 (N.shiftr c 16).

(** qrpc.go:18-22  [Cmd(c & 0xffff)] *)
Definition Routing (c : Cmd) : Cmd := N.land c 0xffff.

(** qrpc.go:24-27  [Cmd(uint32(c)&0xffff + uint32(opaque)<<16)]; in Go [&] and [<<]
    bind tighter than [+]; the sum is a uint32. *)
Definition CmdWithOpaque (c : Cmd) (opaque : N) : Cmd :=
  u32 (N.land c 0xffff + u32 (N.shiftl opaque 16)).

(** qrpc.go:29-45  [type FrameFlag uint8] and the iota constants *)
Definition FrameFlag := N.
(** qrpc.go:33-34. *)
Definition StreamFlag    : FrameFlag := 1.
(** qrpc.go:35-36. *)
Definition StreamEndFlag : FrameFlag := 2.
(** qrpc.go:37-38. *)
Definition StreamRstFlag : FrameFlag := 4.
(** qrpc.go:39-40. *)
Definition NBFlag        : FrameFlag := 8.
(** qrpc.go:41-42. *)
Definition PushFlag      : FrameFlag := 16.
(** qrpc.go:43-44. *)
Definition CodecFlag     : FrameFlag := 32.

(** Go's [^x] on a uint8. *)
Definition not8 (x : N) : N := N.lxor x 255.

(** qrpc.go:47-50  [flg & ^(StreamFlag & StreamEndFlag)] (sic: [&], not [|]) *)
Definition ToNonStream (flg : FrameFlag) : FrameFlag :=
  N.land flg (not8 (N.land StreamFlag StreamEndFlag)).
(** qrpc.go:52-55 *)
Definition ToStream (flg : FrameFlag) : FrameFlag := N.lor flg StreamFlag.
(** qrpc.go:57-60 *)
Definition ToEndStream (flg : FrameFlag) : FrameFlag := N.lor flg StreamEndFlag.
(** [flg & bit != 0] *)
Definition has (flg bit : FrameFlag) : bool := negb (N.land flg bit =? 0).
(** qrpc.go:72-75 *)
Definition IsStream (flg : FrameFlag) : bool := has flg StreamFlag || has flg StreamEndFlag.
(** qrpc.go:62-65 *)
Definition IsNonBlock (flg : FrameFlag) : bool := IsStream flg || has flg NBFlag.
(** qrpc.go:67-70 *)
Definition IsRst (flg : FrameFlag) : bool := has flg StreamRstFlag.
(** qrpc.go:77-84 *)
Definition IsDone (flg : FrameFlag) : bool :=
  negb (IsStream flg) || has flg StreamEndFlag || has flg StreamRstFlag.
(** qrpc.go:86-89 *)
Definition IsPush (flg : FrameFlag) : bool := has flg PushFlag.
(** qrpc.go:91-94 *)
Definition IsCodec (flg : FrameFlag) : bool := has flg CodecFlag.
(** qrpc.go:96-99 *)
Definition ToNonCodec (flg : FrameFlag) : FrameFlag := N.land flg (not8 CodecFlag).
(** qrpc.go:101-104 *)
Definition ToCodec (flg : FrameFlag) : FrameFlag := N.lor flg CodecFlag.
