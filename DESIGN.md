# Formal model of zhiqiangxu/qrpc in Rocq (Coq 8.16.1)

## Approach

* The model is executable Gallina over `list`, `nat`, `N`, `Z`, `option` and records (Coq standard library only).
* Sequential code is modelled function by function.  Concurrent code is modelled as a labelled state machine:
  `step : state -> label -> option state` (None = the label is not enabled), one label per atomic action of one
  goroutine (atomic load/store/CAS, channel operation, mutex critical section, map operation).  An execution is a
  list of labels (a schedule); theorems quantify over all schedules, so over all interleavings, without bounds on
  goroutines, connections, frames or lengths.
* A Go panic is an explicit outcome or flag of the model, a blocked goroutine is a label that is not enabled.
* External code is an explicit parameter: the network (list of read/write outcomes chosen by the adversary), the
  clock (list of time values), the compressor codec (record of functions), handlers and callbacks (arbitrary
  choices of labels), `math/rand` (the drawn number is an argument).
* Where the faithful model violates the English property the violation is proved: `Cnn_statement : Prop` is the full
  statement, a theorem with `_refuted` in its name gives the witness, and a theorem with the suffix `_partial` gives
  the strongest version found to hold, with what is missing said next to it.
* "proved" in MANIFEST.json means that the theorems listed cover the English statement and its quantifier, for the
  model.  Everything else is "partial".

## File layout (`rocq/theories/`)

* `Model/*.v`  : models, no proofs.  Each definition cites the file and lines of /repo it models, and says what it leaves out.
* `Spec/*.v`   : small specifications, independent of the models.
* `Proofs/*.v` : lemmas and invariants.
* `Props/*.v`  : one file per area: the property theorems, with `Print Assumptions` under each, and next to them
  `Example`s showing that their hypotheses are met by concrete non-trivial cases.

## Trusted base

* Coq 8.16.1's kernel (and `vm_compute`, which a few proofs about concrete runs and the sweep over all 256 flag bytes use).
* Axioms: none.  `Print Assumptions` answers "Closed under the global context" for each of the 387 theorems in
  MANIFEST.json.  (coqchk over the whole library also lists the axioms `Coq.ssr.ssrunder.*` of a standard library file
  that gets loaded; no theorem depends on them.)
* The reading of the Go source: the tie between model and code is by reading only.  The code was not run.
* What is assumed of Go and its library, in the models themselves: sequentially consistent atomics, `sync.Mutex`,
  `sync.Map`, `sync.WaitGroup` and channels as documented; `select` takes any ready case; `int` is 64 bits;
  `bufio.Reader`, `io.ReadFull`, `net.Buffers.WriteTo`, `encoding/binary` as modelled in `Model/Reader.v`,
  `Model/ConnWriter.v`, `Model/GoBase.v`.  C30 and C52 assume a Go release whose `net.Buffers` clears consumed entries
  (C14 has both kinds of releases).
* The English of properties.jsonl and the formal statements agree by reading.

## What is modelled

| file in /repo | modelled in | left out |
|----|----|----|
| qrpc.go | Qrpc | error values |
| frame.go | FrameReader, Dial (context lookups), Stream (FrameCh) | |
| framewriter.go | FrameWriter, BufReuse (pool) | - |
| framereader.go | FrameReader, Stream (`ReadFrame`) | |
| reader.go, writer.go | Reader, ReadPool, ConnWriter | |
| stream.go | Stream | logging |
| conf.go | the fields used by the models | |
| middleware.go, server.go `ServeMux` | Mux | |
| server.go | Accept, AcceptSock, Listen, Shutdown, ServeAll, Group, Graceful, Throttle, Lifecycle, Panics, KickOrder, Walk, Hooks, CloseRate, KickMetric, Push (`GetPushID`) | the inside of the close rate limiter (its contract is modelled), TLS itself |
| serveconn.go | Serve, Hooks, Response, WriteReq, ServerCall, Route, WriteCombine, Lifecycle, Stream, Ids, FirstFrame, Metrics, WriteMetrics | `Anything` |
| clientconn.go | Dial, ClientHooks, Sockets, ClientWrite, Response, Call, ServerCall, Push, Route, Stream, Ids, FirstFrame | logging, sleeping between dials |
| clientconn_reuse.go | Sockets | the tcpreuse dialer itself (by contract) |
| api.go | Api, ApiCall | |
| channel/*.go | Channel, ChanPair, ChanShared, RecvShared | JSON encoding (a parameter) |
| codegen/client.go, service_handler.go, generator.go | Codegen, Generated, Rpc, Generator | the fixed text inside generated functions (Generator.v keeps names, types, imports, signatures) |
| codegen/pb/rpc.pb.go | Pb | reflection and registration glue |
| ws/server/*.go | WsConn, WsListener | the HTTP upgrade, gorilla/websocket itself |
| ws/client/*.go | Sockets (`DialConn`); the connection it makes is ws/server/conn.go's | gorilla/websocket's Dialer (by contract) |
| tool/packet | FirstFrame | flag parsing |
| tool/qrpcurl | Qrpcurl | option parsing (urfave/cli), what is printed |
| logger.go, test/ | not modelled | |

The models of one connection's concurrency are separate machines (Stream, Response, Serve, WriteCombine / ClientWrite,
Lifecycle, Route).  Pair joins two Stream machines by byte streams through FrameWriter and FrameReader, Call (ServerCall) adds the client's (server's)
Responses and reconnection to Pair, ChanPair channels, and Rpc the generated client and server.  Metrics and Hooks are on top of Serve, WriteMetrics of WriteCombine, KickMetric of Lifecycle, Group of ServeAll,
Sockets of Dial.  Each takes what the others do as free choices of the environment; the header of each says which.

## Per property
| id | title | models (`Model/`) | how proved | status |
|----|-------|------|-----------|--------|
| C01 | Frame round trip | FrameWriter, FrameReader, Reader, Qrpc | bit and byte lemmas for big-endian fields, then the writer's history invariant and the reader over any chunking | proved |
| C02 | Wire format is the documented one | FrameWriter, FirstFrame | equality with the byte layout of Spec/FrameSpec, for all flags; integers by byte lemmas | proved |
| C03 | Framing is independent of transport chunking | Reader, FrameReader | induction on chunks and on frames | proved |
| C04 | Frame size limits | FrameReader | case analysis for all headers, uint32 conversion of the limit written out | proved |
| C05 | Compression is transparent | FrameWriter, FrameReader | round trip under the inverse hypothesis, any codec | partial |
| C06 | No payload leaks between frames of a writer | FrameWriter | invariant over arbitrary call histories and the pool | partial |
| C07 | Request sends a non-streamed frame | FirstFrame, Qrpc | sweep over all 256 flag bytes (the whole domain) | partial |
| C08 | Cmd packing | Qrpc | bit lemmas | proved |
| C09 | Request ids never collide | Ids | invariant over all interleavings, 64-bit wrap included | proved |
| C10 | Mux routing ignores the opaque byte | Mux | induction on registrations | proved |
| C11 | Duplicate registration panics | Mux | induction on registrations | partial |
| C12 | Middleware chain | Mux | induction on the chain | proved |
| C13 | Connection writer delivers an exact prefix | ConnWriter | invariant of the write loop over adversarial connection, clock and context | partial |
| C14 | Batch write outcome per frame | ConnWriter | the same over net.Buffers, both kinds of Go releases | partial |
| C15 | WebSocket conn is a byte stream | WsConn | refinement to a byte stream | proved |
| C16 | WebSocket Write reports failures | WsConn, ConnWriter | induction on the batch | partial |
| C17 | Read deadline policy | Reader | arithmetic over all configured values | partial |
| C18 | Incoming frames never crash the process | Stream | inductive invariant over all schedules (Proofs/StreamI, StreamP) | partial |
| C19 | Streams are closed and forgotten exactly once | Stream | inductive invariant (Proofs/StreamP, StreamQ) | partial |
| C20 | Stream frames arrive in order exactly once | Stream, Spec/StreamSpec | invariant relating what was sent and what was obtained (Proofs/StreamQ), invariant placing every frame handed over at a position of the log of frames read (Proofs/StreamS); schedule for the refutation | partial |
| C21 | Reset by peer cancels the request | Stream | progress of the reader's steps, locality of each step | proved |
| C22 | No write after the writing side ended | Stream | inductive invariant | partial |
| C23 | A Response resolves at most once, with its own frame | Response | inductive invariant (Proofs/ResponseP) | proved |
| C24 | Closing resolves every pending Response | Response | inductive invariant; a measure for the closer | proved |
| C25 | Reset by peer resolves the Response | Response, Stream | schedule for the refutation; invariant | partial |
| C26 | Blocking requests run one at a time, in order | Serve | inductive invariant | proved |
| C27 | In-flight stream limit | Serve | inductive invariant; schedule for the refutation | partial |
| C28 | Inbound frame rate limit | Serve | induction on time stamps | proved |
| C29 | Every request is answered or reset | Stream | case analysis of the handler's end, progress of the writer | proved |
| C30 | Concurrent EndWrite on a server connection completes | WriteCombine, Spec/OrderSpec | inductive invariant and a measure (Proofs/WriteCombineP, Q) | partial |
| C31 | Streams of a closed connection are released exactly once | WriteCombine | the same | partial |
| C32 | Connection ids | Lifecycle | inductive invariant (Proofs/LifecycleP); schedules for the refutations | partial |
| C33 | Close notifications run exactly once | Lifecycle | inductive invariant | proved |
| C34 | Shutdown runs shutdown functions exactly once | Shutdown | inductive invariant | proved |
| C35 | Throttle | Throttle | inductive invariant; schedules for the refutations | partial |
| C36 | Weighted endpoint choice is exact | Api | counting lemma | proved |
| C37 | API connection bookkeeping | Api | inductive invariant (Proofs/ApiP) | proved |
| C38 | CallAll covers every endpoint | Api | induction over completion orders | proved |
| C39 | Generated client fails over across all connections | Codegen | list lemmas | proved |
| C40 | Service dispatch | Codegen, Pb | list lemmas | partial |
| C41 | RpcRequest encoding round trip | Pb, Spec/PbSpec | varint lemmas, fuelled decoder | proved |
| C42 | RpcRequest decoding never panics | Pb | the same, explicit panics | partial |
| C43 | Channel Sender honours end | Channel | induction over call sequences | partial |
| C44 | Channel Receiver returns each message once, in order | Channel | induction over call sequences | partial |
| C45 | Reconnect | Dial | induction; schedule for the refutation | partial |
| C46 | Client-side handlers can reach their connection | Dial | inductive invariant on contexts | partial |
| C47 | Configured TLS is used | Dial | case analysis | partial |
| C48 | Closing a connection terminates its goroutines | Stream | measure for the reader; schedule for the refutation | partial |
| C49 | Accept back-off | Accept | induction on accept outcomes | proved |
| C50 | Writing to a finished stream through StreamWriter fails | Stream | inductive invariant | partial |
| C51 | OnKickCB may write to the kicked connection | WriteCombine | schedules for the refutation; invariant | partial |
| C52 | Concurrent EndWrite on a client connection completes | ClientWrite, Spec/OrderSpec | inductive invariant and a measure (Proofs/ClientWriteP, Q) | partial |
| C53 | A lost link is dialed again | ClientWrite | the same | partial |
| C54 | Where an incoming frame goes | Route, Qrpc, FirstFrame, FrameReader | sweep over all flag bytes, case analysis, composition with the codec theorems | partial |
| C55 | A response nobody waits for is dropped | Route | case analysis | partial |
| C56 | Shutdown ends accepting and serving | ServeAll | inductive invariant; schedules for the refutation | partial |
| C57 | A call through the API is sent at most once | ApiCall | case analysis over everything a call can observe | partial |
| C58 | The websocket listener after Close | WsListener | inductive invariant; schedules for the refutation | partial |
| C59 | A generated client gets what the service returned | Generated, Codegen, Pb | composition of C39, C40 and C41 for all types and fates of connections; counterexample type | partial |
| C60 | A frame that waits to be written does not change | BufReuse | inductive invariant over all schedules (Proofs/BufReuseP); schedule for the refutation | partial |
| C61 | Shutdown is graceful | Graceful | inductive invariant over all schedules; schedule for the refutation; induction on the open connections for termination | partial |
| C62 | Listening follows the configuration and leaves nothing open | Listen, Accept | induction on the bindings and on the accept loop | partial |
| C63 | RpcRequest takes fields in any order and keeps unknown ones | Pb (spec: Spec/PbFields.v) | induction on the nested fields for skipRpc, then on the sequence | proved |
| C64 | Frames of a stream do not depend on earlier frames | FrameWriter, FirstFrame (spec: Spec/SwSpec.v) | the writer's buffer represents a header and a payload; induction on the frames | partial |
| C65 | A stream nobody reads does not hold up the others | Stream | invariant of the blocked reader over all schedules without a receive; measure on the reader and stability of "no bound stream under this id" under every other goroutine | partial |
| C66 | Two endpoints of the library | Pair, Stream, FrameWriter, FrameReader, Reader | one invariant over both endpoints and the wire: what was sent is what was read followed by frames whose bytes are the unread buffer and the bytes in flight; each endpoint is a run of the Stream machine, so C18 and C20 apply to it; a concrete run for the crash | partial |
| C67 | A call gets its own answer, and is made at most once | Call, Pair, Response, Stream | invariant over client, server, wire and Responses: every frame of the server under an odd id has its handler and request in the log, every such frame of the client has its call; the Responses are a run of Model/Response.v whose looked-up frames were read from the wire (C23, C20, C66); a count of the frames of a call sent, in progress and waiting; the client registers before it sends and the server reads before it answers, so the first frame under an id finds its Response in the table (Proofs/CallQ, CallR, CallS) | proved |
| C68 | A generated call gets the result of the method it named | Rpc, Call, Codegen, Mux, Pb | the answers of generated handlers in the log of Model/Call.v are those of ServeQRPC (invariant); then C67_own_answer, C40_end_to_end and C41_round_trip | partial |
| C69 | A client holds one socket at a time and closes all of them | Sockets, Dial | invariant over the log of socket operations: the sockets open are exactly the one in conn.rwc | proved |
| C70 | Dialing keeps to DialTimeout and to the socket options | Sockets | case analysis of dialTCP, DialConn and the reused dial | partial |
| C71 | Metrics count every handled request once | Metrics, Serve | invariant relating the metrics to the schedule; the handlers that started are running or have ended once (balance) | proved |
| C72 | ServeAll ends with its server | Model/Group.v (ServeAll and run.Group) over Model/ServeAll.v (Serve, Shutdown, listeners) | invariant relating the position of ServeAll to the number of Serve calls that returned; refutations by schedules, the second with an invariant that holds of all continuations; measure for the actions left | partial |
| C73 | Pushed messages reach the subscriber | Model/Push.v (subscriber, GetPushID) over Model/Call.v | invariant on the streams of pushed frames of the client (closed on both sides and out of the table whenever the reader is not at them), and on the flow: frames read = given to SubFunc ++ on the way; measure for the reader's progress; refutation by a schedule | partial |
| C74 | Walking over connections | Model/Walk.v over Model/Lifecycle.v | induction over the schedule since the walk began, with the states passed through as history; invariant that goroutines and the id map only speak of accepted connections | proved |
| C75 | Kick order | Model/KickOrder.v over Model/Lifecycle.v | invariant on the pending operations on the counter (with uniqueness of the goroutine inside SetID from C32's invariant) and phases of one SetID since it found another connection; refutation by a schedule | partial |
| C76 | The generator writes a file that compiles | Model/Generator.v, Spec/GoFile.v | equivalence: each condition of the specification from the conditions on the service, and each condition on the service from a condition of the specification; refutation by a service with a sub service | partial |
| C77 | Messages through channel.Sender and Receiver | Model/ChanPair.v (Sender, Receiver, request numbering on both sides) over Model/Pair.v and Model/Channel.v | invariant: by request id, the frames sent are those of the calls on the Senders that own the id, and by stream, the frames taken are those the Receiver returned; then C66 applies, as a well-used Sender sends a conforming stream; refutation by a schedule | partial |
| C78 | Panics in OnKickCB and close functions | Model/Panics.v over Model/Lifecycle.v | invariant with the sums of C33's over the goroutines, extended by the connections whose OnKickCB panicked and the calls left out; runs of the Lifecycle machine for the progress of Close; refutation by a schedule; the leak by induction over all continuations | partial |
| C79 | A server's call gets its own answer and is handled once | Model/ServerCall.v over Model/Pair.v and Model/Response.v | invariants as for C67 with the sides exchanged: ids of calls, what is on the wire comes from calls, answers come after registered requests, the first answer reaches its Response; refutation by a schedule | partial |
| C80 | OnAccept comes first, OnClose last | Model/Hooks.v over Model/Serve.v | invariant relating the log of events to the phase of each connection; liveness by building the continuation | proved |
| C81 | OnConnect and OnDisconnect enclose a link | Model/ClientHooks.v | invariant over the loop's program counter; refutation by a schedule | partial |
| C82 | Closing a client connection never ends the process | Model/ClientHooks.v | invariant: before the second read the socket is there; refutation by a schedule | partial |
| C83 | One channel Sender, several goroutines | Model/ChanShared.v | lock invariant; invariant for the one goroutine that is sending; refutation by a schedule | partial |
| C84 | qrpcurl sends what it was asked to send | Model/Qrpcurl.v over Model/FirstFrame.v | induction over strings for Split and Atoi; the frame from C02 | partial |
| C85 | One channel Receiver, several goroutines | Model/RecvShared.v | invariant over three phases: first message untaken, in one hand, returned | partial |
| C86 | Recycled read buffers keep connections apart | ReadPool (over Reader) | ownership invariant: a buffered reader is held by one connection or lies in the pool; own bytes = given ++ buffered ++ still to come; completeness by induction on what is pending | proved |
| C87 | MaxCloseRate | CloseRate | refuted by two schedules; invariant: turns taken + turns saved <= burst + time, and who closes a socket has a turn or is a kick; counting with NoDup lists | partial |
| C88 | Recycled write requests keep writers apart | WriteReq | ownership invariant: a request is in the pool, or held by one call, or left with one batcher by a call that gave up; a request that is queued or in a batch has an empty channel and its own frame | proved |
| C89 | Failed writes are counted | WriteMetrics (over WriteCombine) | refuted by a schedule; invariants over the write lock: the call whose write failed keeps it, and only its holder counts | partial |
| C90 | Kicked connections are counted | KickMetric (over Lifecycle) | refuted by schedules; invariants: who won the compare-and-swap is still at the connection or has counted it; the one goroutine that closed the socket holds the result without error | partial |
| C91 | Accepted sockets are prepared, then checked, then served | AcceptSock (over Accept) | induction over the rounds of the accept loop | proved |

## What the proofs found

The full statement is false of the model for these properties; the witness is the theorem named `_refuted` (some have several).

* **C05** (Compression is transparent): full statement refuted (a codec mapping a non-empty payload to the empty string loses it); proved for codecs that never do that
* **C06** (No payload leaks between frames of a writer): full statement refuted: a failed EndWrite (ErrNoCodec / codec error) or abandoned bytes leak into the next frame, also through the pool; proved for histories without failed or abandoned writes; exact behaviour proved for all histories
* **C07** (Request sends a non-streamed frame): full statement refuted: ToNonStream is the identity; proved for callers that pass no stream flag
* **C11** (Duplicate registration panics): full statement refuted: a cmd with a non-zero opaque byte is checked under a key different from the one used for routing; proved for cmds with opaque byte 0
* **C13** (Connection writer delivers an exact prefix): Refuted in one corner (C13_refuted): writing an empty slice may return an error together with n = 0. Proved for everything else; the result is about calls that return.
* **C14** (Batch write outcome per frame): Refuted over all Go releases (C14_refuted, C14_old_go_refuted): the code recognises written frames by net.Buffers having cleared their entries, which older releases do not do. Proved for releases that clear them. go.mod says go 1.16; which release began to clear them could not be checked here.
* **C16** (WebSocket Write reports failures): full statement refuted: the message that failed is itself reported as written; proved: no failing message implies all delivered, and exactly the frames after the failing message get an error
* **C17** (Read deadline policy): full statement refuted for a non-positive configured timeout (no deadline at all); exact policy proved for all values
* **C18** (Incoming frames never crash the process): full statement refuted: a reset for a stream we opened, then an ordinary frame with the same id, closes a closed channel and panics the process; proved panic-free for every execution in which the peer sends no ordinary frame on a stream it has reset
* **C19** (Streams are closed and forgotten exactly once): full statement refuted: a reset that arrives after our side ended leaves the stream in the table for ever; proved: notified at most once always, and forgotten exactly once, cancelled, when both sides ended and no reset was received for the stream; a write never blocks half-way
* **C20** (Stream frames arrive in order exactly once): Exact per stream the peer uses properly (nothing but resets after the frame that ends or resets it), whatever it does on other streams; any interleaving. Refuted for a peer that reuses the id of a request that is not answered yet: the second request is dropped (C20_refuted). For every peer: no duplication, order kept, frames only of the stream's id, none to two streams, and a frame is dropped only after the peer ended or reset that stream (C20_any_peer_partial).
* **C22** (No write after the writing side ended): full statement refuted: once both sides ended and the stream was forgotten, another frame under the id creates a new stream object and is sent; proved that this is the only way, and that otherwise the write is refused with an error
* **C25** (Reset by peer resolves the Response): False of the code: ReadFrame swallows resets, so the IsRst branches of both readers are dead and GetFrame waits until its answer arrives or the connection closes (C25_refuted, C25_waits). Proved part: closing the connection resolves it.
* **C27** (In-flight stream limit): refuted as stated: blocking requests decrement the counter without incrementing it; proved: bound m + blocking requests served, so the limit holds on connections without blocking requests, and exceeding it ends serve and closes
* **C30** (Concurrent EndWrite on a server connection completes): False of the code in one case: an EndWrite before serve() has set sc.inflight (the connection is visible to WalkConn from newConn on) keeps the write lock until close (C30_refuted, C30_early_write_hangs). Proved without restriction: one writer, order, truthful results, bounded steps, holder never waits, nothing after a failed write, everybody returns after close. Proved when serve ran first (_partial): no deadlock, every maximal schedule finishes with results. That written frames are answered nil after a failed batch assumes a Go release whose net.Buffers clears consumed entries (C14).
* **C31** (Streams of a closed connection are released exactly once): False if an EndWrite overlaps serve()'s store to sc.inflight: the count ends at -1 and the streams are never released (C31_refuted). Proved when serve ran first: released exactly when the reader has quit and no call uses the streams, once, never used after, and the release comes.
* **C32** (Connection ids): refuted: SetID racing Close of the same connection leaves a closed connection registered (the next SetID of the id loops for ever), and closing a connection between setting and binding its id removes another connection's binding; proved in full when SetID and Close of one connection are kept apart
* **C35** (Throttle): refuted for concurrent SetThrottle/ClearThrottle (double close panics, a waiter is lost); proved when those two are not called at the same time
* **C40** (Service dispatch): full statement refuted: FQMethod("a:b","c") = FQMethod("a","b:c"); proved for namespaces without ':' (any method names)
* **C42** (RpcRequest decoding never panics): full statement refuted: a run of 8 continuation bytes makes varint decoding panic (index out of range); proved panic-free when every 8 consecutive bytes contain one below 0x80; termination proved for the same inputs
* **C43** (Channel Sender honours end): full statement refuted: the client Sender drops end=true on every message but the first; the server Sender has no closed state. Proved: client after End, client first message, server end, no spurious end
* **C44** (Channel Receiver returns each message once, in order): full statement refuted: the server Receiver with cmd=nil consumes the message without decoding it. Client side proved in full; server side for callers that ask for the cmd
* **C45** (Reconnect): full statement refuted: a reconnecting connection closed while its server is reachable dials forever. Round-robin proved; stops at first failed dial proved; non-reconnecting connections proved
* **C46** (Client-side handlers can reach their connection): full statement refuted: on the connection made by the constructor all three calls panic; proved for every later connection
* **C47** (Configured TLS is used): full statement refuted: NewConnectionWithReconnect and reconnects never pass TLSConf; proved for NewConnection
* **C48** (Closing a connection terminates its goroutines): full statement refuted: when the reader is in AddInFrame at close and the select takes ctx.Done, it then waits on Stream.Done() which never fires; proved for conforming peers and a reader not yet in that wait, and without help from handlers when each stream is one frame
* **C50** (Writing to a finished stream through StreamWriter fails): proved for the server; refuted on the client for the second and later frames of a batch (checkExist ignored there), proved on the client for the first frame of a batch
* **C51** (OnKickCB may write to the kicked connection): False of the code: a failed write racing with the kick, or a failed write inside OnKickCB followed by a second EndWrite, deadlocks the kick forever (C51_refuted, C51_hangs_forever). Proved part: while no write has failed, the callback's EndWrite can return.
* **C52** (Concurrent EndWrite on a client connection completes): Refuted for reconnecting connections with WriteFrameChSize > 0 (C52_refuted, C52_hangs): a call made by a handler, SubFunc or callback just after the link is lost, or by anyone after Close and a failed dial, may be queued with no writer left and never return. Proved: order, at most once, truth of results; termination of every schedule without reconnecting or with an unbuffered queue; completion after one successful dial when no handler or callback runs. That written frames are answered nil after a failed batch assumes a Go release whose net.Buffers clears consumed entries (C14).
* **C53** (A lost link is dialed again): Refuted (C53_refuted, C53_never_reconnects): loop waits for the handler, the handler waits for the writer that has quit. Proved: dialing comes only after reader, writer and handlers have returned; with none running and not closed the library reconnects given a successful dial.
* **C54** (Where an incoming frame goes): Refuted (C54_refuted): the client reader gives up on blocking requests and on odd ids nobody waits for, and a request made with the push flag never reaches the Handler (C54_push_request_not_handled). Proved: all flag predicates and setters against a bit table, both routings completely (link not closed), requests without push and codec flags end to end, streamed requests too. That ReadFrame swallows resets before they are routed is in C25.
* **C55** (A response nobody waits for is dropped): Refuted (C55_refuted): a client that has a Handler ends the connection on such a frame (C55_client_quits), and a server hands it to its Handler as a request (C55_server_serves_it). Proved for clients without a Handler.
* **C56** (Shutdown ends accepting and serving): Refuted (C56_refuted): a Serve call that starts after Shutdown accepts and serves for good (C56_late_serve_accepts); a connection accepted just before is served after Shutdown returned (C56_accepted_before_served_after). Proved for Serve calls that had registered their listener; also that a failed Shutdown leaves earlier bindings half closed.
* **C57** (A call through the API is sent at most once): Refuted (C57_refuted): Call sends the request again when the wait for its response fails, also when that is because the context expired (C57_call_sends_twice); CallOne may send twice when Request returns an error with the frame already on the wire (C57_callone_sends_twice). Proved: bounds 4 / 2 / 2 per endpoint, and at most once for CallOne and CallAll if a failing Request has written nothing. What the call sees of the shared connection table is an input of the model, so the proof covers every interleaving but the refuting inputs are not derived from Model/Api.v.
* **C58** (The websocket listener after Close): Refuted (C58_refuted): Accept may return a connection after Close (C58_accept_after_close), any number even of later upgrades (C58_serves_upgrades_after_close), and a handler lets its connection go at Close (C58_connection_let_go). Proved: each upgraded connection is in exactly one place, none is let go before Close, FIFO, no blocking after Close.
* **C59** (A generated client gets what the service returned): Refuted (C59_refuted): the generator takes the output type from the list of input types when it generates the server's side, so outputs are always written as JSON there, while the client decodes an output with its own Unmarshal if it has one (C59_marshaler_output_never_arrives). Proved for output types without their own Marshal and Unmarshal.
* **C60** (A frame that waits to be written does not change): Refuted (C60_refuted, C60_other_connection_leaks): when a connection's context is cancelled, EndWrite returns while its frame is still queued or being written; the writer is put back into the pool, and what the next user builds, for any connection, is written instead. Proved for calls that did not give up, for connections whose context is not cancelled, and for reconnecting client connections; a nil result always means that the own frame was written.
* **C61** (Shutdown is graceful): Refuted (C61_refuted, C61_response_lost): when Serve returns, its deferred cancel ends the contexts of all connections, so their serve loops close them under running handlers, whose EndWrite then fails; nothing written afterwards is sent (C61_too_late). Proved: responses go out until Serve has returned; no handler is running when Shutdown has returned; Shutdown returns once the handlers have. One binding whose listener is registered (otherwise: C56).
* **C62** (Listening follows the configuration and leaves nothing open): Refuted (C62_refuted): when the listen call of a later binding fails, the sockets of the earlier ones stay open and Shutdown does not know them (C62_failed_listen_leaves_open); a connection that is not a TCPConn is neither served nor closed (C62_wrong_type_lost). Proved: every binding gets its listener as configured, which sockets are left open exactly, all TCP connections are served or closed, the options set. What an OverlayNetwork does with the listener is in C58. C62_registered_closed: Shutdown closes exactly the sockets that a Serve has registered.
* **C64** (Frames of a stream do not depend on earlier frames): Refuted (C64_refuted): StartWrite of a StreamWriter keeps the flags of the frame before. After EndWriteCompressed the codec mark stays, so that without a codec every later non-empty EndWrite fails (C64_after_compressed); an empty opening frame loses the codec mark for the whole stream (C64_codec_lost); whatever is written after ResetFrame is another reset (C64_after_reset). Proved when no frame of the stream is compressed or all are.
* **C65** (A stream nobody reads does not hold up the others): refuted: a frame after the first is handed over by the reader itself, so a handler that does not receive - or that returned after the first frame, even when its reset is already on the wire - stops the whole connection until it is closed (C65_refuted, C65_one_stream_holds_up_all); proved: first frames and resets never wait (C65_first_frames_and_resets_partial), a later frame waits for one receive on its own stream and nothing else (C65_later_frames_partial)
* **C66** (Two endpoints of the library): refuted: a handler that returns and whose goroutine answers later makes the server send a reset and then the answer, on which the client process panics (C66_refuted, C66_late_answer_crashes_client); proved: the frames cross unchanged, in order and none lost (C66_frames_cross, C66_next_frame_arrives); no crash as long as the other side sends no ordinary frame on a stream after its reset (C66_no_crash_partial); streams and calls for a sender that sends nothing but resets on a stream after its end (C66_stream_crosses_partial, C66_call_partial)
* **C68** (A generated call gets the result of the method it named): Refuted (C68_refuted, C68_errors_become_outputs): an error cmd above 0xffffff, which NewWithCmd accepts, is cut to 24 bits on the wire, so the caller takes the text of an error for the output. Proved for all error cmds that fit. Methods are functions of their input; what they do besides is not modelled
* **C70** (Dialing keeps to DialTimeout and to the socket options): Refuted (C70_refuted): the TLS handshake (C70_tls_unbounded) and the websocket upgrade (C70_ws_unbounded) have no time limit; NewReusedConnection asks for no buffer sizes (C70_reuse_ignores_options). Proved for TCP without TLS, for every dial of a reconnecting connection over TCP, and the buffer sizes for TCP and websockets
* **C72** (ServeAll ends with its server): C72_refuted; C72_returns_while_serving: with two bindings, a connection accepted just before Shutdown is still served when ServeAll has returned; C72_never_returns: a Serve that registers its listener after Shutdown keeps ServeAll waiting forever. Partial: when ServeAll returns every Serve has returned and every listener is closed (always); if all Serve calls had registered before Shutdown, ServeAll is never stuck once no connection is served and has boundedly many actions left; if moreover no Accept had just returned, nothing is served when it returns.
* **C73** (Pushed messages reach the subscriber): C73_refuted: a client that writes a frame with PushFlag and StreamRstFlag under the id of a message its reader is working on makes the next message with this id disappear. Partial: true for all executions in which the client writes no such frame (order, exactly once, completeness, and the reader gets done with each message by its own steps). That no call gets a message and that GetPushID's numbers are distinct holds without this restriction. SubFunc is assumed to return.
* **C75** (Kick order): C75_refuted: the counter is loaded after the id is bound, so a kick in between gives the kicked connection an order as great as or greater than its successor's. Partial: true whenever the SetID of the connection found under the id had returned by the moment it is found (the order is then greater than all returned so far, for any id). The claims about kick and about successive orders hold without restriction.
* **C76** (The generator writes a file that compiles): C76_refuted: with any sub service Output panics (C76_sub: the method printed for it has no parameter list). C76_accepted_iff_partial says exactly when the file is accepted: one main service and no sub service, the service name an identifier that begins with an upper-case letter, every input and output type has a name (pointers, slices and maps do not), no method is called Client, no package of the service is called context or qrpc (their names are in the fixed text) and none has the name of a declaration. 'Accepted' is Spec/GoFile.v: conditions on names, types, imports, signatures and the methods called on inputs and outputs; other statements in the fixed text, and variables that hide package names, are not looked at. Assumed of reflection and of the protoc generator library: names are identifiers, package names are unique, pointers to contexts are no Marshalers, a variable of a type has the methods reflection finds for a pointer to it.
* **C77** (Messages through channel.Sender and Receiver): C77_refuted: when the connection is lost, Receive returns ErrStreamFinished like at the end of a complete stream, although a message whose Send succeeded never arrived. Partial (for a Sender on which no Send succeeds after End, after a Send with end, or after the handler returned): messages arrive in order and once, at one stream; ErrStreamFinished while the reader of the connection has not stopped means that all have arrived; once the sender's frames have been read, a Receiver that was called has had all; a message that was read is what the next Receive returns; values decode to those sent when Receive is given a cmd pointer; every Sender has a request id of its own. 'Send succeeded' is: the writer accepted the frame.
* **C78** (Panics in OnKickCB and close functions): C78_refuted: a function registered with NotifyWhenClose that panics in the goroutine that reads frames (which closes the connection when the peer hangs up) ends the process. C78_kick_panic_leaks: after a panic of OnKickCB, even recovered in a handler, the kicked connection is neither closed nor found any more, its context is never cancelled (so Shutdown waits for ever) and no Close on it returns. Partial: a panic in a goroutine that runs a handler never ends the process; Close can return for every connection whose OnKickCB did not panic; the functions of a connection are each called once except those after one that panicked. Assumed: util.GoFunc does not recover.
* **C79** (A server's call gets its own answer and is handled once): C79_refuted: a frame under one of the server's own ids that belongs to no pending call is given to the server's handler as if it were a request. So when a client's handler writes two frames for one request, the server's handler is called with the second, and if it answers, the client's handler is called again for the same call. Partial: everything in the statement, when no handler of the server answers a frame that came under one of the server's own ids (such a frame is recognised by FromServer). C79_delivered_partial and C79_first_answer_partial are about Request (not StreamRequest).
* **C81** (OnConnect and OnDisconnect enclose a link): C81_refuted: the reader is started before OnConnect is called, so a pushed message can reach SubFunc first; C81_late_calls: buffered pushes and goroutines that were already started call SubFunc and handlers after OnDisconnect. Partial: everything else in the statement, and every call lies between the dial of its own link and the next dial, or the return of Wait.
* **C82** (Closing a client connection never ends the process): C82_refuted: readFrames tests conn.rwc for nil and then reads it again, with no lock; when closeRWC comes in between (Close right after NewConnection), a nil net.Conn is used in a goroutine with no recover. Partial: no such panic in any execution where the socket is not closed between the two reads. Panics of user code and of the standard library are not in this model.
* **C83** (One channel Sender, several goroutines): C83_refuted: Send takes only the read lock, and all Sends fill one buffer: two that overlap make one frame with the bytes of both. C83_wrong_length: the length field may be that of one of them, so the peer takes payload for the next header. C83_two_streams: two first Sends open two streams. Partial: C83_end_partial (nothing after End's reset, with any overlap) and C83_in_turn_partial (Sends that do not overlap, from any goroutines, with End at any moment).
* **C84** (qrpcurl sends what it was asked to send): C84_refuted: with the push flag (-f 16) Request returns a nil Response and no error, and the tool dereferences it after the frame was sent. C84_dials_for_nothing: a flag out of range is noticed only after dialing. Partial: C84_asked_partial (right form, no push flag), C84_sent_partial (nothing is sent for any other), C84_dialed_partial (nothing is dialed unless address and cmd have the right form), C84_no_panic_partial.
* **C85** (One channel Receiver, several goroutines): C85_refuted: on the server's side two Receives that overlap before the first message was returned both return it. C85_receiver_useless: on the client's side, when two overlap before the first message and one of them gives up, it sets firstFrame back to nil; from then on no Receive can return but by its context, although messages are there. Partial: C85_first_alone_partial (the whole statement, when no other Receive is called until one has returned the first message), C85_client_once_partial (on the client's side, with any overlap: a message is returned once, none passed over, and ErrStreamFinished comes last).
* **C87** (MaxCloseRate): Two parts are false of the code. C87_refuted: bindID closes the sockets of kicked connections without a turn of the limiter, so any number can be closed at one moment. C87_one_turn_refuted: a connection that ends by a read error is closed by readFrames and again by serve, and takes two turns. Proved: sockets closed, kicks not counted, keep to the rate (C87_rate_partial); the ends of connections (serve over, before OnClose) keep to it, kicked or not (C87_ends_partial); connections that end by read errors end at no more than half the rate (C87_half_rate_partial); turns in any period (C87_period_partial); a waiting Close can have a turn after 1/MaxCloseRate seconds (C87_turn_comes). The limiter is third-party code and modelled by its contract. A socket refused by OnAccept is closed by the accept loop and is not a connection yet.
* **C89** (Failed writes are counted): C89_refuted: the error of the batch is overwritten by the result of the writer's own frame, so a write that failed after this frame is not counted. C89_counts_refused: a frame refused by the stream logic, with nothing wrong on the connection, is counted. Proved: counts are made by different EndWrite calls, each of which returns an error (C89_errors_partial); after a failed write there is at most one more count (C89_once_partial); the call whose write failed is counted exactly if its own EndWrite returns an error (C89_own_error_partial).
* **C90** (Kicked connections are counted): C90_refuted: a SetID that finds a connection which is closing itself counts it as kicked. C90_counted_twice: two SetID calls that find the same connection both count it. C90_counted_forever: after the race of C32 one SetID call counts a connection that was never kicked as often as one likes. Proved: a kicked connection is never left out (C90_kicked_counted_partial); what is counted is closed and lost its id to another connection (C90_counted_closed); at most once under error=<nil> (C90_no_error_once); exact in executions where no SetID comes to a connection whose closing has begun (C90_exact_partial).

## Seeded bugs

`seeded/LOG.jsonl` has one line for each wrong edit of the model that was tried in a copy: the definition edited, the edit
(`old`, `new`), the claim it is meant to break, and the outcome.  "build failed" means that some file no longer compiled.
`theorems_failed` names the statements at which the build stopped, which may be a lemma or an invariant of the claim's
proof; `theorems_not_rebuilt` are those that depend on it and were therefore not checked.  So a failed build alone does
not show that the English claim is false after the edit, only that the proof noticed it.  "survived" means that everything
was still proved; each such line has a remark: either the edit changes nothing that any claim says (why is stated), or
theorems were tightened (`theorems_tightened`) and the edit was tried again.
