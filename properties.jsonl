{"id": "C01", "title": "Frame round trip", "statement": "A frame produced with FrameWriter.StartWrite(requestID, cmd, flags), any number of WriteBytes calls and EndWrite, when read by the peer's frame reader, yields a Frame with the same RequestID, the low 24 bits of cmd, the same Flags and a Payload equal to the concatenation of the WriteBytes arguments; nothing after the frame is consumed.", "quantifier": "every requestID, cmd, flags without CodecFlag, every list of byte chunks with total length below 2^32-12, every following byte string", "why_tests_cant": "The space of ids, flags, commands and payload splits is unbounded; tests only try a handful of payloads.", "anchors": ["framewriter.go: StartWrite, WriteBytes, EndWrite, endWrite", "framereader.go: readFrame"]}
{"id": "C02", "title": "Wire format is the documented one", "statement": "The bytes put on the connection for a frame are exactly the layout of doc/frame.md: 4-byte big-endian length of the rest, 8-byte big-endian stream id, 1 flag byte, 3-byte big-endian cmd, payload. tool/packet emits the same bytes for the same fields. Integers written with WriteUint64/32/16/8 enter the payload most significant byte first.", "quantifier": "every id, cmd, flags and payload (length below 2^32-12)", "why_tests_cant": "Interoperability with third-party clients depends on every header value, not on sampled ones.", "anchors": ["doc/frame.md", "framewriter.go: StartWrite, SetCmd, SetFlags, SetRequestID, endWrite", "tool/packet/main.go: main"]}
{"id": "C03", "title": "Framing is independent of transport chunking", "statement": "A byte stream that is the concatenation of valid frames is decoded into exactly that sequence of frames, however the transport splits it into reads; a truncated last frame gives an error, never a frame.", "quantifier": "every list of frames, every split of the byte stream into non-empty reads, every truncation point", "why_tests_cant": "There are exponentially many ways TCP can split the stream; tests exercise whichever the kernel picks.", "anchors": ["reader.go: ReadBytes, ReadBytesWithMaxTimeout, NewReaderWithTimeout", "framereader.go: readFrame"]}
{"id": "C04", "title": "Frame size limits", "statement": "With MaxFrameSize m>0 (at most 2^32-1) a frame whose declared size is above m is refused with ErrFrameTooLarge before any payload byte is consumed, a declared size below 12 is refused with ErrInvalidFrameSize, and every accepted frame consumed exactly 4+size bytes with 12<=size<=m. A server without MaxFrameSize uses 10 MiB.", "quantifier": "every header, every limit, every following byte stream", "why_tests_cant": "A hostile peer chooses the header; all 2^32 sizes and all limits matter.", "anchors": ["framereader.go: readFrame", "serveconn.go: serve, DefaultMaxFrameSize"]}
{"id": "C05", "title": "Compression is transparent", "statement": "If the codec's Decode inverts Encode, a frame written with CodecFlag reads back with the original payload, its wire size is never larger than without the codec, and CodecFlag is cleared when the payload is empty or compression does not help; without a codec EndWrite returns ErrNoCodec and sends nothing.", "quantifier": "every codec with the inverse property, every payload and header", "why_tests_cant": "Depends on every codec output length relation, including the empty and equal-length corners.", "anchors": ["framewriter.go: EndWrite, EndWriteCompressed", "framereader.go: readFrame", "conf.go: CompressorCodec"]}
{"id": "C06", "title": "No payload leaks between frames of a writer", "statement": "The payload of a frame is the concatenation of the WriteBytes calls made since the previous EndWrite, and never contains bytes written for another frame or, through the writer pool, for another request or connection.", "quantifier": "every history of StartWrite/WriteBytes/EndWrite/ResetFrame calls, failing ones included, and every recycling of writers", "why_tests_cant": "The leak needs particular failure histories and pool reuse which tests do not enumerate.", "anchors": ["framewriter.go: newFrameWriter, Finalize, StartWrite, EndWrite, endWrite, fwPool"]}
{"id": "C07", "title": "Request sends a non-streamed frame", "statement": "Connection.Request puts on the wire a frame that is not streamed, whatever flags the caller passes ('send a nonstreamed request frame').", "quantifier": "every flag byte", "why_tests_cant": "Needs all 256 flag values.", "anchors": ["qrpc.go: ToNonStream, IsStream, IsDone, IsNonBlock", "clientconn.go: Request"]}
{"id": "C08", "title": "Cmd packing", "statement": "CmdWithOpaque(c,o) keeps the routing part of c, carries o as opaque byte, never exceeds MaxCmd, and routing and opaque parts together determine any cmd up to MaxCmd.", "quantifier": "every cmd and opaque value", "why_tests_cant": "Bit-level law over 2^40 combinations.", "anchors": ["qrpc.go: Opaque, Routing, CmdWithOpaque, MaxCmd"]}
{"id": "C09", "title": "Request ids never collide", "statement": "Requests issued on one connection by either side get pairwise distinct ids; ids issued by the client are odd, ids issued by the server are even, so the two sides never use the same id and FromClient/FromServer classify them correctly.", "quantifier": "every number (below 2^63-1) and interleaving of Request/StreamRequest calls on both sides", "why_tests_cant": "Needs all interleavings of concurrent callers and all counter values up to wrap-around.", "anchors": ["clientconn.go: nextRequestID", "serveconn.go: nextRequestID", "frame.go: FromClient, FromServer", "server.go: GetPushID"]}
{"id": "C10", "title": "Mux routing ignores the opaque byte", "statement": "ServeMux dispatches a request to the handler registered for the low two bytes of its Cmd, whatever its opaque byte; an unregistered Cmd closes the connection and calls no handler.", "quantifier": "every sequence of registrations and every request cmd", "why_tests_cant": "Unbounded registration histories and 2^24 cmds.", "anchors": ["server.go: ServeMux.Handle, ServeMux.ServeQRPC"]}
{"id": "C11", "title": "Duplicate registration panics", "statement": "ServeMux.Handle panics when a handler already exists for the cmd and never replaces an existing handler silently.", "quantifier": "every sequence of Handle calls with cmd up to MaxCmd", "why_tests_cant": "The failing case depends on pairs of cmds which share routing bytes.", "anchors": ["server.go: ServeMux.Handle"]}
{"id": "C12", "title": "Middleware chain", "statement": "Middleware run in registration order, each exactly once, up to the first that returns false; the handler runs exactly when all return true, after all of them.", "quantifier": "every list of middleware and handler", "why_tests_cant": "Unbounded chain lengths and outcomes.", "anchors": ["middleware.go: HandlerWithMW, handlerMW.ServeQRPC"]}
{"id": "C13", "title": "Connection writer delivers an exact prefix", "statement": "Writer.Write delivers to the connection exactly the first n bytes of its argument, once and in order, where n is its return value; it returns a nil error exactly when n is the whole length.", "quantifier": "every sequence of partial writes, timeouts, errors, clock values and context cancellation", "why_tests_cant": "Partial-write and timeout interleavings cannot be forced from unit tests.", "anchors": ["writer.go: Write"]}
{"id": "C14", "title": "Batch write outcome per frame", "statement": "When a batch of frames is written, the bytes delivered are a prefix of the concatenation of the frames in queue order, and each EndWrite in the batch returns nil exactly when all bytes of its frame were delivered, otherwise an error.", "quantifier": "every batch, every pattern of partial writes, timeouts and errors", "why_tests_cant": "Error attribution depends on where in the batch the transport fails.", "anchors": ["writer.go: writeBuffers", "serveconn.go: writeBuffers", "clientconn.go: writeBuffers"]}
{"id": "C15", "title": "WebSocket conn is a byte stream", "statement": "Over the websocket overlay, successive Read calls return the bytes of the received binary messages in order, without loss or duplication, whatever the read sizes; empty messages are skipped and Read never returns 0 bytes with a nil error for a non-empty buffer.", "quantifier": "every message sequence and every sequence of read sizes", "why_tests_cant": "All combinations of message sizes and buffer sizes.", "anchors": ["ws/server/conn.go: Read, readBuffer"]}
{"id": "C16", "title": "WebSocket Write reports failures", "statement": "When a websocket message could not be written, no EndWrite whose bytes were in it returns nil.", "quantifier": "every batch of frames and every failing message index", "why_tests_cant": "Needs fault injection at every message.", "anchors": ["ws/server/conn.go: Write", "writer.go: writeBuffers"]}
{"id": "C17", "title": "Read deadline policy", "statement": "A payload read is bounded by at most 3 seconds (payloadReadMaxTimeoutSecond) whatever the configured read timeout; header reads use the configured timeout, a non-positive timeout meaning no deadline.", "quantifier": "every configured timeout", "why_tests_cant": "Timeout arithmetic over all configured values.", "anchors": ["reader.go: ReadBytesWithMaxTimeout", "framereader.go: readFrame, payloadReadMaxTimeoutSecond"]}
{"id": "C18", "title": "Incoming frames never crash the process", "statement": "No sequence of frames sent by a peer makes the frame reader panic (close of closed channel, send on closed channel), under any interleaving with outgoing frames and handlers.", "quantifier": "every incoming frame sequence, every outgoing frame sequence, every interleaving at atomic-operation granularity", "why_tests_cant": "Needs hostile frame orders and schedules.", "anchors": ["stream.go: TryBind, AddInFrame, closePeerIfNeeded, ResetByPeer, AddOutFrame, afterDone", "framereader.go: ReadFrame"]}
{"id": "C19", "title": "Streams are closed and forgotten exactly once", "statement": "When both directions of a stream have ended, the stream's close notification happens exactly once, its context is cancelled and the connection forgets it, whichever side ended last and however the two ends race.", "quantifier": "every stream, every interleaving of the last incoming and last outgoing frame", "why_tests_cant": "The race window is a few instructions wide.", "anchors": ["stream.go: closePeerIfNeeded, AddOutFrame, afterDone, ResetByPeer, CreateOrGetStream"]}
{"id": "C20", "title": "Stream frames arrive in order exactly once", "statement": "The frames a handler obtains for a stream (first frame plus Frame.FrameCh) are exactly the frames the peer sent on that stream, in order, without loss or duplication, until the stream ends, is reset, or its connection closes.", "quantifier": "every incoming frame sequence over many interleaved streams and every handler schedule", "why_tests_cant": "Unbounded multiplexing and schedules.", "anchors": ["framereader.go: ReadFrame", "stream.go: TryBind, AddInFrame, CreateOrGetStream", "frame.go: FrameCh"]}
{"id": "C21", "title": "Reset by peer cancels the request", "statement": "When the peer sends a reset frame for a stream, the context of that stream's request is cancelled and its FrameCh is closed; no other stream is affected.", "quantifier": "every state of every other stream, every interleaving", "why_tests_cant": "Needs every stream state at the time of the reset.", "anchors": ["framereader.go: ReadFrame", "stream.go: ResetByPeer, GetStream", "clientconn.go: ResetFrame"]}
{"id": "C22", "title": "No write after the writing side ended", "statement": "After a frame that ends the writing side of a stream (non-streamed, StreamEndFlag) has been accepted, no further non-reset frame is ever put on the wire for that stream; EndWrite returns an error.", "quantifier": "every history of outgoing and incoming frames on a connection", "why_tests_cant": "Depends on whether the peer side closed in between.", "anchors": ["stream.go: AddOutFrame", "serveconn.go: collectWriteFrames", "clientconn.go: collectWriteFrames"]}
{"id": "C23", "title": "A Response resolves at most once, with its own frame", "statement": "Each Response returned by Request/StreamRequest receives at most one outcome (a frame or closed); if it is a frame, the frame's RequestID is the id of that request; no outcome ever panics or blocks the reader.", "quantifier": "every interleaving of callers, writer, reader, close and reconnect", "why_tests_cant": "Needs all interleavings of reader, writer and close.", "anchors": ["clientconn.go: readFrames, writeBuffers, closeRWC, SetResponse, Close, GetFrame", "serveconn.go: readFrames, writeBuffers, closeUntracked"]}
{"id": "C24", "title": "Closing resolves every pending Response", "statement": "After a connection is closed, every Response whose Request returned without error and which got no frame has been closed, so GetFrame returns ErrStreamClosed instead of blocking; no Response can be registered and missed by a concurrent close; a response frame always finds its pending Response.", "quantifier": "every interleaving of register/write/read/close", "why_tests_cant": "Race between registration and close.", "anchors": ["clientconn.go: writeBuffers, closeRWC, GetFrame", "serveconn.go: writeBuffers, closeUntracked"]}
{"id": "C25", "title": "Reset by peer resolves the Response", "statement": "When the peer resets a request (for instance its handler returned without writing), the caller's Response.GetFrame returns ErrStreamClosed ('reason may be: 1. reset by peer').", "quantifier": "every pending request and connection state", "why_tests_cant": "Tests never wait on a reset request.", "anchors": ["clientconn.go: ErrStreamClosed, readFrames, GetFrame", "framereader.go: ReadFrame"]}
{"id": "C26", "title": "Blocking requests run one at a time, in order", "statement": "On one connection, handlers of blocking requests never overlap, run in arrival order, and no request that arrived after a blocking request starts before its handler returned, even if a handler panics.", "quantifier": "every sequence of blocking and nonblocking requests, every schedule, every ReadFrameChSize", "why_tests_cant": "Overlap needs particular schedules.", "anchors": ["serveconn.go: serve, readFrames, gate, handleRequestPanic"]}
{"id": "C27", "title": "In-flight stream limit", "statement": "With MaxInboundInflightStreamPerConn = m > 0, at most m nonblocking handlers run concurrently on one connection; exceeding the limit closes the connection.", "quantifier": "every mix of blocking and nonblocking requests and every schedule of handler completions", "why_tests_cant": "Counter drift only shows after particular mixes.", "anchors": ["serveconn.go: serve, handleRequestPanic"]}
{"id": "C28", "title": "Inbound frame rate limit", "statement": "With MaxInboundFramePerSecond = m > 0, no more than m consecutive request frames read within one clock second are accepted; the next one closes the connection. Connections below the limit are never closed by it.", "quantifier": "every sequence of arrival timestamps", "why_tests_cant": "All timestamp sequences.", "anchors": ["serveconn.go: readFrames"]}
{"id": "C29", "title": "Every request is answered or reset", "statement": "When a handler returns or panics without having ended its stream, a reset frame is sent for that request; if it ended the stream no reset is sent.", "quantifier": "every handler behaviour and interleaving with the peer", "why_tests_cant": "All handler behaviours.", "anchors": ["serveconn.go: handleRequestPanic", "clientconn.go: handleRequestPanic", "stream.go: IsSelfClosed"]}
{"id": "C30", "title": "Concurrent EndWrite on a server connection completes", "statement": "While the connection stays up, every EndWrite call on a server connection that got its frame queued eventually gets exactly one result, no call waits forever while holding the write lock, frames reach the wire unmixed and in queue order, and only one goroutine writes at a time.", "quantifier": "every number of concurrent writers, every WriteFrameChSize, every schedule", "why_tests_cant": "The hand-off protocol has unboundedly many schedules.", "anchors": ["serveconn.go: writeFrameBytes, collectWriteFrames, writeBuffers, wlockCh"]}
{"id": "C31", "title": "Streams of a closed connection are released exactly once", "statement": "The streams of a server connection are released exactly once, only when the reader has quit and no write is in progress, and no stream is created afterwards.", "quantifier": "every schedule of reader exit and writers", "why_tests_cant": "Reference-count race.", "anchors": ["serveconn.go: addAndCheckInflight, tryFreeStreams, serve", "stream.go: Release"]}
{"id": "C32", "title": "Connection ids", "statement": "A connection found by id (GetConnectionInfoByID, WalkConnByID) has that id and is not closed; after SetID returns the id designates that connection until it is closed or kicked; the previous owner is closed; SetID terminates.", "quantifier": "every interleaving of SetID and Close calls on any number of connections", "why_tests_cant": "Races between SetID and Close.", "anchors": ["server.go: bindID, untrack", "serveconn.go: SetID, Close, closeUntracked"]}
{"id": "C33", "title": "Close notifications run exactly once", "statement": "Every function passed to NotifyWhenClose runs exactly once when the connection is closed or kicked, including functions registered after the close; OnKickCB runs at most once per connection and only for kicked ones.", "quantifier": "every interleaving of NotifyWhenClose, Close, kick on any number of goroutines", "why_tests_cant": "Races between registration and close.", "anchors": ["serveconn.go: NotifyWhenClose, closeUntracked, Close", "server.go: untrack"]}
{"id": "C34", "title": "Shutdown runs shutdown functions exactly once", "statement": "Every function registered with OnShutdown runs exactly once, whether registered before or after Shutdown, for any number of concurrent Shutdown calls; a failing listener close leaves the server restartable (Shutdown can be retried).", "quantifier": "every interleaving of OnShutdown and Shutdown calls, every listener failure", "why_tests_cant": "Race between registration and shutdown.", "anchors": ["server.go: Shutdown, OnShutdown, closeListenersLocked"]}
{"id": "C35", "title": "Throttle", "statement": "After ClearThrottle every goroutine that was held by SetThrottle proceeds, and none proceeds while the throttle is on (unless the server or connection is done); neither call panics.", "quantifier": "every interleaving of SetThrottle, ClearThrottle and waiting goroutines", "why_tests_cant": "Needs concurrent callers.", "anchors": ["server.go: SetThrottle, ClearThrottle, waitThrottle"]}
{"id": "C36", "title": "Weighted endpoint choice is exact", "statement": "API.Call picks endpoint i for exactly weights[i] of the totalWeight equally likely random draws; endpoints with weight 0 are never picked.", "quantifier": "every list of non-negative weights with positive sum", "why_tests_cant": "Distribution over all weight lists.", "anchors": ["api.go: getIdx, NewAPI"]}
{"id": "C37", "title": "API connection bookkeeping", "statement": "Under any concurrent calls the API never panics in its bookkeeping, keeps at most one connection per endpoint slot, and after Close returns every connection the API ever created is closed and no new one is created.", "quantifier": "every interleaving of Call/CallOne/CallAll/Close and every connection failure", "why_tests_cant": "Races between reconnect and Close.", "anchors": ["api.go: callViaIdx, callWithoutConn, safeCloseDeleteConn, safeStoreConnLocked, reconnectIdx, Close"]}
{"id": "C38", "title": "CallAll covers every endpoint", "statement": "CallAll returns a result for exactly the configured endpoints; CallOne on an unknown endpoint fails without sending.", "quantifier": "every endpoint list and outcome", "why_tests_cant": "Unbounded lists, duplicates.", "anchors": ["api.go: CallAll, CallOne, NewAPI"]}
{"id": "C39", "title": "Generated client fails over across all connections", "statement": "codegen Client.Request tries every connection at most once, starting at a rotating index, returns the result of the first connection that accepts the request, and returns ErrServiceNA only when every connection refused.", "quantifier": "every number of connections, every counter value, every failure pattern", "why_tests_cant": "All failure patterns.", "anchors": ["codegen/client.go: Request"]}
{"id": "C40", "title": "Service dispatch", "statement": "ServiceHandler calls exactly the method registered for (ns, method) with the request's params and answers with its bytes under the request cmd; unknown methods, undecodable requests and method errors are answered under errCmd and close the connection. Distinct (ns, method) pairs never reach the same method.", "quantifier": "every registration table and request", "why_tests_cant": "Name collisions and all request bytes.", "anchors": ["codegen/service_handler.go: FQMethod, ServeQRPC"]}
{"id": "C41", "title": "RpcRequest encoding round trip", "statement": "RpcRequest.Unmarshal(Marshal(m)) gives back m for every ns, method, params; Size is the exact length of Marshal.", "quantifier": "every request whose field lengths fit in an int", "why_tests_cant": "All lengths cross varint boundaries.", "anchors": ["codegen/pb/rpc.pb.go: Marshal, MarshalTo, Size, sovRpc, encodeVarintRpc, Unmarshal"]}
{"id": "C42", "title": "RpcRequest decoding never panics", "statement": "RpcRequest.Unmarshal returns a value or an error for every byte string; it never indexes out of range.", "quantifier": "every byte string", "why_tests_cant": "Overflow needs crafted 9-byte varints.", "anchors": ["codegen/pb/rpc.pb.go: Unmarshal, skipRpc"]}
{"id": "C43", "title": "Channel Sender honours end", "statement": "Sender.Send(..., end=true) ends the sender's side of the stream, for the first and for later messages; after End, Send returns ErrSenderClosed and sends nothing; a second End returns ErrSenderCloseTwice.", "quantifier": "every sequence of Send/End calls on client and server senders", "why_tests_cant": "Histories of calls.", "anchors": ["channel/clienttransport.go: Send, End", "channel/servetransport.go: Send, End"]}
{"id": "C44", "title": "Channel Receiver returns each message once, in order", "statement": "Receiver.Receive decodes the messages of the stream in order, one per call, then ErrStreamFinished, whether or not the caller asks for the cmd.", "quantifier": "every message sequence and every mix of cmd arguments", "why_tests_cant": "Histories of calls.", "anchors": ["channel/servetransport.go: Receive", "channel/clienttransport.go: Receive, getFrame"]}
{"id": "C45", "title": "Reconnect", "statement": "A reconnecting Connection tries its addresses round-robin, each one within len(addrs) consecutive attempts, and stops dialing and terminates once Close was called.", "quantifier": "every address list, dial outcome sequence and close point", "why_tests_cant": "Unbounded dial histories.", "anchors": ["clientconn.go: loop, connect, Close, Wait"]}
{"id": "C46", "title": "Client-side handlers can reach their connection", "statement": "A handler configured in ConnectionConfig.Handler can call ClientConnectionInfo, StreamInitiator and Close on its request frame without panicking, on the first and on every later underlying connection.", "quantifier": "every connection incarnation", "why_tests_cant": "Only first incarnation differs.", "anchors": ["clientconn.go: newConnection, connect, readFrames", "frame.go: ClientConnectionInfo, Close, StreamInitiator"]}
{"id": "C47", "title": "Configured TLS is used", "statement": "If ConnectionConfig.TLSConf is set, every connection dialed by NewConnection or NewConnectionWithReconnect, including reconnects, is dialed with it.", "quantifier": "every configuration and reconnect history", "why_tests_cant": "Configuration flow across all dials.", "anchors": ["clientconn.go: NewConnection, NewConnectionWithReconnect, connect, dialTCP"]}
{"id": "C48", "title": "Closing a connection terminates its goroutines", "statement": "After a connection is closed, its frame reader returns, so Wait/Shutdown return and OnClose runs, whatever the peer sent and whatever handlers are doing, provided handlers return.", "quantifier": "every incoming frame sequence and close point", "why_tests_cant": "Deadlocks need particular frame orders at close.", "anchors": ["framereader.go: ReadFrame", "stream.go: AddInFrame, Done, Release", "clientconn.go: loop, readFrames", "serveconn.go: serve, readFrames"]}
{"id": "C49", "title": "Accept back-off", "statement": "After the k-th temporary accept error since the last accepted connection (in particular after k consecutive ones) the server waits min(5ms*2^(k-1), 1s), and a successful accept resets the delay; a connection refused by OnAccept is closed, never served, and OnClose is called for it once.", "quantifier": "every sequence of accept outcomes", "why_tests_cant": "Unbounded outcome sequences.", "anchors": ["server.go: Serve"]}
{"id": "C50", "title": "Writing to a finished stream through StreamWriter fails", "statement": "StreamWriter.EndWrite on a stream that has been fully closed returns an error and puts nothing on the wire, on both sides and wherever the frame falls in a write batch.", "quantifier": "every batch position and connection history", "why_tests_cant": "Depends on the batch position.", "anchors": ["clientconn.go: collectWriteFrames", "serveconn.go: collectWriteFrames", "framewriter.go: checkExist"]}
{"id": "C51", "title": "OnKickCB may write to the kicked connection", "statement": "When SetID kicks the connection that holds the id, every EndWrite call that OnKickCB makes on the kicked connection returns, so the kick completes and SetID returns, without the listener having to be stopped.", "quantifier": "every schedule of other writers, write failures and kick", "why_tests_cant": "Needs a write failure racing with a kick.", "anchors": ["server.go: bindID, untrack", "serveconn.go: writeFrameBytes, writeBuffers, Close"]}
{"id": "C52", "title": "Concurrent EndWrite on a client connection completes", "statement": "Every EndWrite call on a client Connection (also those made by Request) returns exactly one outcome; nil is returned only if the frame was written completely and an error result only if it was not; frames reach the wire in the order they were queued, each at most once, also across reconnections; and no call waits forever, whichever goroutine makes it: user code, a handler, SubFunc, OnConnect or OnDisconnect, also while the link is lost or after Close.", "quantifier": "every number of concurrent calls, every WriteFrameChSize, reconnecting or not, every link failure, dial outcome, close point and schedule", "why_tests_cant": "The calls race with the writer's quitting and with reconnecting.", "anchors": ["clientconn.go: writeFrameBytes, writeFrames, collectWriteFrames, abortRequestsWhenClosed, loop, connect, Close"]}
{"id": "C53", "title": "A lost link is dialed again", "statement": "When the link of a reconnecting Connection is lost and Close has not been called, the Connection dials again, whatever its handlers and callbacks are doing; it does so only after reader, writer and handlers of the lost link have returned.", "quantifier": "every history of calls, handlers, callbacks and failures", "why_tests_cant": "Needs a handler's write racing with the loss of the link.", "anchors": ["clientconn.go: loop, connect, writeFrameBytes, readFrames"]}
{"id": "C54", "title": "Where an incoming frame goes", "statement": "Each flag of a frame is one bit, read and set independently of the others. A frame that is read goes to exactly one place, fixed by its flags, its request id and the responses waited for: pushes to SubFunc; responses and resets to the Response waiting for that id; everything else to the Handler, with the server's reader waiting for the handler exactly if the frame has neither the nonblocking nor a stream flag. A request sent by Connection.Request always reaches the server's Handler and one sent by the server's Request reaches the client's Handler without blocking its reader. One sent by StreamRequest, by either side, is a streamed frame with otherwise the caller's flags, and reaches the peer's Handler without blocking its reader.", "quantifier": "every flags byte, request id, set of waiting responses and payload", "why_tests_cant": "256 flags times all ids and pending sets; tests use a few flags.", "anchors": ["qrpc.go: FrameFlag", "serveconn.go: readFrames, Request", "clientconn.go: readFrames, Request", "frame.go: FromServer"]}
{"id": "C55", "title": "A response nobody waits for is dropped", "statement": "A response frame whose request id belongs to the receiving side but for which no Response is waiting (a duplicate, or one that comes too late) is ignored: it neither ends the connection nor is served as a request.", "quantifier": "every frame without push flag, every set of waiting responses, both sides, with and without Handler", "why_tests_cant": "Needs a misbehaving or late peer.", "anchors": ["serveconn.go: readFrames", "clientconn.go: readFrames"]}
{"id": "C56", "title": "Shutdown ends accepting and serving", "statement": "Once Shutdown has returned nil, no connection is accepted or served any more by any binding, every Serve call returns ErrServerClosed, and Shutdown itself returns once the connections have ended.", "quantifier": "every number of bindings, every interleaving of Serve calls, Shutdown calls, arriving connections, Accept failures and failures to close a listener", "why_tests_cant": "Depends on the moment at which Shutdown is called relative to Serve's start and to Accept's return.", "anchors": ["server.go: Serve, trackListener, Shutdown, closeListenersLocked"]}
{"id": "C57", "title": "A call through the API is sent at most once", "statement": "A request handed to Call, CallOne or CallAll is sent at most once (for CallAll: once to each endpoint), CallOne sends to the named endpoint only and nothing for an unknown one, and a frame that is returned is the response to a request that was sent.", "quantifier": "every state of the connections as seen by the call, every outcome of dialing, of Request and of waiting, every number of endpoints", "why_tests_cant": "Needs a context that expires, or a link that is lost, at a chosen point between writing and the response.", "anchors": ["api.go: Call, CallOne, CallAll, callViaIdx, callWithoutConn, callViaActiveConns", "clientconn.go: Request, writeFrameBytes, GetFrameWithContext"]}
{"id": "C58", "title": "The websocket listener after Close", "statement": "Once Close of the websocket listener has returned, Accept returns no further connection, and no upgraded connection is let go without having been returned by Accept or closed. Accept returns each upgraded connection at most once, in the order in which they were queued, at most 128 wait, and Accept and the HTTP handlers do not block after Close.", "quantifier": "every number of connections, every interleaving of upgrades, Accept calls and Close", "why_tests_cant": "Depends on select choosing between two ready cases and on requests accepted just before Close.", "anchors": ["ws/server/overlay.go: newOverlay, Accept, Close"]}
{"id": "C59", "title": "A generated client gets what the service returned", "statement": "A method of a generated client returns the output that the service's method returned for the input, whenever a connection takes the request and it is answered; in all other cases it returns an output on which SetError was called.", "quantifier": "all input and output types whose encodings can be decoded again (types with their own Marshal and Unmarshal, and others), all services, inputs, numbers of connections and failures of connections", "why_tests_cant": "a test tries the types of one service; the generator chooses the encoding per type, separately for the client's and the server's side", "anchors": ["codegen/generator.go:271-301", "codegen/generator.go:313-342", "codegen/generator.go:383-428", "codegen/client.go:38-76", "codegen/service_handler.go:32-68"]}
{"id": "C60", "title": "A frame that waits to be written does not change", "statement": "The bytes put on a connection for a call of EndWrite are those that its writer had built when EndWrite was called, on that connection; in particular no connection's peer gets bytes built for another connection.", "quantifier": "all executions: any number of connections, writers shared through the pool, concurrent EndWrite calls, cancelled connections, growing buffers, all interleavings", "why_tests_cant": "needs a cancelled connection, a writer reused through sync.Pool, and a batch still being written, at the same time", "anchors": ["framewriter.go:33-49", "framewriter.go:130-142", "serveconn.go:452-541", "serveconn.go:622-680", "clientconn.go:380-418"]}
{"id": "C61", "title": "Shutdown is graceful", "statement": "Shutdown lets the requests that are being handled finish: a request whose handler was running when Shutdown was called gets its response on the wire when the handler writes it, unless the link is lost for another reason; when Shutdown has returned, no handler of the server is running; and Shutdown returns once the handlers have.", "quantifier": "any number of connections and requests, all interleavings of handlers, serve loops and Shutdown", "why_tests_cant": "the response is lost or not depending on which of several goroutines notices the cancelled context first", "anchors": ["server.go:281-303", "server.go:515-545", "serveconn.go:151-219", "serveconn.go:372-379", "serveconn.go:452-541"]}
{"id": "C62", "title": "Listening follows the configuration and leaves nothing open", "statement": "A ListenAll that succeeds has given every binding one listener on its own address, made with its ListenFunc if it has one, with its TLS configuration, overlay network and buffer sizes; one that returns an error leaves no socket open that Shutdown would not close. Every connection that the listener accepts is served or closed, and has keep-alive and the configured buffer sizes set. Serve returns at the first Accept that fails after Shutdown, and at no other.", "quantifier": "every list of bindings, every outcome of the listen calls, every sequence of accepted connections and errors", "why_tests_cant": "needs a listen call that fails after others succeeded, or a ListenFunc giving connections of another type", "anchors": ["server.go:195-237", "server.go:281-339", "server.go:349-408"]}
{"id": "C63", "title": "RpcRequest takes fields in any order and keeps unknown ones", "statement": "RpcRequest.Unmarshal accepts every sequence of well-formed protobuf fields in which NS, method and params have their type: each gets its last value (empty if absent), whatever the order, and all other fields, of any wire type and with groups nested to any depth, are skipped exactly and kept byte by byte, so that Marshal gives them back after the known fields. A field 1, 2 or 3 of another wire type gives an error.", "quantifier": "every sequence of well-formed fields, in total shorter than 2^62 bytes", "why_tests_cant": "unbounded nesting and combinations of wire types; tests have no unknown fields at all", "anchors": ["codegen/pb/rpc.pb.go: Unmarshal, skipRpc, Marshal"]}
{"id": "C64", "title": "Frames of a stream do not depend on earlier frames", "statement": "Each frame written through the StreamWriter of a streamed request carries the stream's id, the command given to StartWrite, the bytes given to WriteBytes, and the flags given to StreamRequest with the stream flag, plus the end flag exactly if EndWrite was given true and the codec flag exactly if EndWriteCompressed was used or StreamRequest asked for compression and it helps for this payload, independently of the frames written before; ResetFrame sends a frame with the reset flag only and the reason as command.", "quantifier": "every streamed request and every sequence of frames with any of the three endings, of which only the last ends the stream, every codec", "why_tests_cant": "needs combinations of endings over several frames of one stream", "anchors": ["framewriter.go:96-159", "framewriter.go:184-212", "clientconn.go:312-324", "serveconn.go:705-717"]}
{"id": "C65", "title": "A stream nobody reads does not hold up the others", "statement": "While a connection is open and the peer respects the protocol, the frames of other streams keep reaching their handlers even if the handler of one stream does not read its frames, or has returned: the first frame of a request, a response or a reset is dealt with at once whatever the other streams do, and a later frame of a stream waits at most for its own handler without keeping the connection from reading on.", "quantifier": "every sequence of frames of such a peer and every behaviour of the handlers", "why_tests_cant": "needs a handler that stops reading at a particular moment while other streams are active; shows as a hang", "anchors": ["framereader.go:40-77", "stream.go:126-144", "serveconn.go:252-278"]}
{"id": "C66", "title": "Two endpoints of the library", "statement": "A client and a server of this library that talk to each other do not crash each other, whatever is called on the two sides and however the bytes arrive. The frames one side reads are, in order and with the same ids, flags, cmds and payloads, the frames the other side sent, none lost; a stream on which one side sends nothing after the frame that ends it is received by one stream on the other side, which is given exactly those frames; and when a request and its one answer were sent and read, the handler was given the request and the caller's stream the answer.", "quantifier": "every interleaving of the two processes, every sequence of calls, every way the bytes are cut up on the way", "why_tests_cant": "needs both processes under adversarial schedules; a crash needs an answer that comes after its handler returned", "anchors": ["framereader.go:40-157", "framewriter.go:35-176", "stream.go:36-230", "serveconn.go:252-278", "serveconn.go:622-680", "clientconn.go:595-701"]}
{"id": "C67", "title": "A call gets its own answer, and is made at most once", "statement": "When GetFrame on the Response of a client's Request returns a frame, that frame was written by a handler of the server which was given exactly the frame of this call (for StreamRequest: a frame sent under its id), and by no handler of another call. The request of a call is put on the wire at most once, also when the connection is lost and made again, so at most one handler is called for it. An answer is never lost on a connection that stays open: a frame the client has read under the id of a Request is given to the Response of that call, the first one and once.", "quantifier": "every interleaving of callers, writer, readers, handlers and network on both sides, any number of calls (fewer than 2^63) and reconnections, whatever else is sent; servers whose handlers answer under the id of the request they were given, and use other odd ids only for pushes and resets", "why_tests_cant": "needs ids, stream tables, response tables, framing and reconnection together under adversarial schedules; a swapped answer shows only as wrong data", "anchors": ["clientconn.go:314-374", "clientconn.go:477-546", "clientconn.go:595-772", "framereader.go:40-77", "stream.go:36-160", "serveconn.go:363-436"]}
{"id": "C68", "title": "A generated call gets the result of the method it named", "statement": "When a call through the generated client is answered, the caller gets exactly what the method registered under that namespace and name returned for exactly the bytes that were sent, as output if it returned bytes and as an error if it returned an error; a call of a method that does not exist gets an error. This holds over a real connection, with other calls, other services, pushes, resets and reconnections going on.", "quantifier": "all services (any methods, any two different cmds the ServiceMux accepts), all inputs, every interleaving of callers, network, readers, writers and handlers", "why_tests_cant": "the request goes through the protobuf encoding, the frame encoding, the stream tables, the mux, the dispatch table and the response table; a mix-up shows only under concurrency", "anchors": ["codegen/client.go:37-76", "codegen/service_handler.go:32-68", "codegen/generator.go:351-359", "clientconn.go:314-374", "clientconn.go:477-546", "qrpc.go:6-11"]}
{"id": "C69", "title": "A client holds one socket at a time and closes all of them", "statement": "A dial that fails leaves no socket open. A client connection has at most one socket open at any time, none while it dials and none once its goroutine has returned; every socket it opened and no longer uses has been closed, exactly once.", "quantifier": "dialing over TCP with and without TLS, over websockets and with NewReusedConnection, every outcome of every dial, every interleaving of link failures, Close and RequestFrame.Close", "why_tests_cant": "a leaked socket shows only as a file descriptor that stays open; needs a failing TLS handshake, or a Close at a particular moment", "anchors": ["clientconn.go:99-176", "clientconn.go:258-305", "clientconn.go:429-444", "clientconn_reuse.go:13-21", "ws/client/conn.go:17-62"]}
{"id": "C70", "title": "Dialing keeps to DialTimeout and to the socket options", "statement": "With a positive DialTimeout, NewConnection, NewReusedConnection and NewConnectionWithReconnect return, and each later dial ends, within DialTimeout; and the configured read and write buffer sizes are asked for on every socket that is used.", "quantifier": "all configurations, with and without TLS, over TCP, websockets and reused sockets, every duration of connecting, handshake and upgrade", "why_tests_cant": "needs a peer that accepts the connection and then stays silent", "anchors": ["clientconn.go:99-176", "clientconn.go:258-305", "clientconn_reuse.go:13-21", "ws/client/conn.go:17-62"]}
{"id": "C71", "title": "Metrics count every handled request once", "statement": "With CounterMetric set, for each command and each outcome (normal, or the value of the panic) the counter is the number of requests with this command whose handler ended this way: each is counted once, requests that were never handled are not counted; and one more count is made under readFrames exactly when reading has ended. With LatencyMetric set, there is one observation for each of these ends: the time from the start of the handler to its end.", "quantifier": "every sequence of blocking and nonblocking requests, outcomes, durations, limits and closings, every interleaving of reader, serve loop and handlers, with either metric set or nil", "why_tests_cant": "tests do not set the metrics; a miscount shows only with concurrent requests that panic", "anchors": ["serveconn.go:145-278", "serveconn.go:322-353"]}
{"id": "C72", "title": "ServeAll ends with its server", "statement": "When ServeAll has returned, every Serve it started has returned, every listener is closed and no connection is being served any more. After a Shutdown that closed the listeners, ServeAll returns once the connections being served have ended; it does not wait for anything else.", "quantifier": "every number of bindings, every interleaving of ServeAll, the Serve calls, Accept results, connections and any number of Shutdown calls, successful or not", "why_tests_cant": "depends on what Shutdown overtakes: a Serve that has not begun yet or an Accept that has just returned; tests shut down an idle server", "anchors": ["server.go:243-258", "server.go:281-339", "server.go:515-545"]}
{"id": "C73", "title": "Pushed messages reach the subscriber", "statement": "The messages a server pushes over one connection, each in one frame, are given to the client's SubFunc in the order of sending, each exactly once and none left out, whatever ids they carry and whatever else is sent or called; once the client has read everything, it has been given all of them. A message is never given to a call as its answer and does not hold up the reading of later frames. GetPushID never gives the same number twice (fewer than 2^64 calls).", "quantifier": "every interleaving of both sides of a connection, every mixture of pushes, calls, answers, streams and resets, every chunking of the bytes, any number of reconnections", "why_tests_cant": "a message goes through the table of streams of the client, where a message with the same id still closing takes it away: a matter of a few instructions", "anchors": ["clientconn.go:477-546", "framereader.go:40-77", "stream.go:36-59", "stream.go:145-160", "server.go:561-565"]}
{"id": "C74", "title": "Walking over connections", "statement": "WalkConnByID(ids, f) calls f at most once per position of ids and in the order of ids; the connection f is given was found under the id at that position at some moment of the walk and has that id; an id that designates one connection during the whole walk gets its call with that connection (so an id that designates none gets none). WalkConn(f) calls f at most once per connection, only for connections the server has at some moment of the walk, never again after f returned false, and, unless f returned false, for every connection the server has during the whole walk. GetConnectionInfoByID returns a connection that has the id. Walks never wait and end after one turn per id or connection.", "quantifier": "every number of walks going on together with connections being accepted, given ids, kicked and closed in every interleaving, also by f itself", "why_tests_cant": "the outcome depends on what happens to the maps between two turns of the loop", "anchors": ["server.go:567-594", "server.go:421-443"]}
{"id": "C75", "title": "Kick order", "statement": "SetID returns (kick, order). If the SetID of one connection closes another connection that had the id, it returns kick = true and an order greater than the one the SetID of the closed connection returned; kick = true is returned only if another connection with the id has been closed; orders returned one after the other do not decrease (fewer than 2^64 kicks in the process).", "quantifier": "every interleaving of SetID and Close calls on any number of connections, and of kicks elsewhere in the process", "why_tests_cant": "the counter is read some instructions after the id is bound", "anchors": ["server.go:446-488", "serveconn.go:95-108"]}
{"id": "C76", "title": "The generator writes a file that compiles", "statement": "When New, Register and RegisterSub have not panicked, Output writes a Go file that the compiler accepts: it has the syntax of Go, every name is declared once, every type and package it mentions exists, every import is used, the client and the mux it builds implement the interfaces it declares, the callbacks have the type of a callback, and the types of inputs and outputs have the methods it calls on them.", "quantifier": "every service name, every set of main and sub services with any methods that are accepted at registration, in every package, whatever the packages are called", "why_tests_cant": "the tests generate one service; which services give a broken file is a matter of names of types, methods and packages", "anchors": ["codegen/generator.go:29-156", "codegen/generator.go:173-457"]}
{"id": "C77", "title": "Messages through channel.Sender and Receiver", "statement": "On a connection between this library's client and server, the messages one side sends with a channel Sender (Pipe's, or the one given to a handler; nothing sent after an end) are returned by the Receiver of the other side with the same cmd (24 bits) and payload, in the order of sending, each exactly once, and mixed with no message of another Sender; when Receive returns ErrStreamFinished, every message for which Send returned nil has been received.", "quantifier": "every number of Pipes opened by both sides of a connection, every interleaving of Sends, Receives, handlers returning and other traffic, every chunking of the bytes", "why_tests_cant": "a connection that breaks between two messages looks to the Receiver like the end of the stream; tests do not break connections", "anchors": ["channel/clienttransport.go:66-151", "channel/servetransport.go:48-93", "framewriter.go:176-212", "stream.go:123-143", "stream.go:209-241"]}
{"id": "C78", "title": "Panics in OnKickCB and close functions", "statement": "When OnKickCB or a function given to NotifyWhenClose panics, the process goes on, every Close that was called can still return, for every connection, and the other functions registered on a closed connection have each been called once no goroutine is calling functions of it; OnKickCB is called at most once for a connection.", "quantifier": "every interleaving of SetID, Close and NotifyWhenClose on any number of connections, in goroutines with and without a handler around them, with any of the functions panicking at any call", "why_tests_cant": "tests have callbacks that do not panic; the damage shows later, in another goroutine", "anchors": ["server.go:450-513", "serveconn.go:122-133", "serveconn.go:150-162", "serveconn.go:243-278", "serveconn.go:755-795"]}
{"id": "C79", "title": "A server's call gets its own answer and is handled once", "statement": "When a server calls a client with Request, what GetFrame returns was written by the client's handler that was given this call's request, exactly as it was made; the request is put on the wire at most once and the client's handler is called at most once for it; and the first answer the server reads is given to this call, once.", "quantifier": "every number of calls in both directions on a connection, every interleaving of callers, writers, readers, handlers on both sides and closing, every chunking of the bytes", "why_tests_cant": "an answer the table of calls does not know is taken for a request: it needs a client's handler that writes twice, and a look at the server's handler", "anchors": ["serveconn.go:699-752", "serveconn.go:373-434", "serveconn.go:542-620", "clientconn.go:503-531", "framereader.go:40-77"]}
{"id": "C80", "title": "OnAccept comes first, OnClose last", "statement": "When OnAccept is set it is asked once for each accepted connection, and no handler and no SubFunc is called for a connection before OnAccept has returned true for it, and none ever when it has returned false. OnClose is called at most once for a connection, for one that was accepted, after its socket was closed and after every handler and SubFunc that was called for it has returned; nothing of this connection happens after it. Once the reader has returned and the handlers have returned, it comes, if none of the callbacks panics; for a refused connection it comes after its socket is closed, before the next connection is accepted.", "quantifier": "every number of connections, every interleaving of the accept loop, readers, handlers, SubFunc calls and closing, with and without OnAccept and OnClose, any throttle limits", "why_tests_cant": "the order of callbacks is seen only when one records it; tests set no callbacks at all or one", "anchors": ["server.go:288-343", "serveconn.go:145-225", "serveconn.go:150-163", "conf.go:19-25"]}
{"id": "C81", "title": "OnConnect and OnDisconnect enclose a link", "statement": "For each link a client Connection has, OnConnect and then OnDisconnect are called once, before the next link is dialed; handlers and SubFunc are called for a link only after OnConnect was called for it and not any more once OnDisconnect was called for it; whenever a link is dialed and when Wait returns, every call of a handler or SubFunc that was begun has returned.", "quantifier": "every number of links, with and without reconnecting, every interleaving of the loop, the reader, the writer, handlers, SubFunc and Close", "why_tests_cant": "the reader is started a few instructions before OnConnect is called, and usually has nothing to read then; the buffer is usually empty when a link is lost", "anchors": ["clientconn.go:213-249", "clientconn.go:259-306", "clientconn.go:477-546", "conf.go:59-63"]}
{"id": "C82", "title": "Closing a client connection never ends the process", "statement": "Whenever a client Connection, or a frame a handler got from it, is closed, no goroutine of the library dereferences the closed socket: the process goes on.", "quantifier": "every moment at which Close is called or the link is lost, every interleaving of the loop, the reader and the writer, with and without reconnecting", "why_tests_cant": "the two reads of the socket are next to each other; closing has to come exactly between them", "anchors": ["clientconn.go:429-465", "clientconn.go:477-486", "reader.go:96"]}
{"id": "C83", "title": "One channel Sender, several goroutines", "statement": "When several goroutines call Send on one Sender of Pipe, the wire carries, on one stream, whole messages that were sent: each with its own cmd (24 bits), its own bytes and their length; the message of every Send that returned nil once, and no message more often than it was sent; and no message follows the reset that End sends.", "quantifier": "any number of goroutines, every interleaving of their Sends and of End with writing, any messages, Sends that fail", "why_tests_cant": "two Sends have to be inside the library at the same moment; the damage is in the bytes of a frame", "anchors": ["channel/clienttransport.go:66-112", "framewriter.go:67-70", "framewriter.go:129-143", "framewriter.go:174-201"]}
{"id": "C84", "title": "qrpcurl sends what it was asked to send", "statement": "qrpcurl -f flag host:port/cmd payload, with host and port free of / and :, cmd a decimal numeral from 0 to 2^24-1 and flag from 0 to 255 without the codec bit, dials host:port (as a websocket with -w), sends one request frame with this cmd, flag and payload, and waits for the answer; with any other command line it dials nothing and sends nothing; it never panics.", "quantifier": "all arguments, flags and payloads, whether or not the server can be reached", "why_tests_cant": "the tool has no tests; some flags make a Request without a Response", "anchors": ["tool/qrpcurl/main.go:25-108", "clientconn.go:351-374", "clientconn.go:326-335"]}
{"id": "C85", "title": "One channel Receiver, several goroutines", "statement": "When several goroutines call Receive on one Receiver, Pipe's or a handler's, each message of the stream is returned by exactly one of the calls and none is passed over; and a call returns, without its context having to expire, as soon as there are messages for all the calls that are running, and when the stream or the connection ends; ErrStreamFinished is returned only when all messages have been, unless the connection was lost.", "quantifier": "any number of goroutines, every interleaving of their calls with arriving messages, contexts that expire and the end of the stream", "why_tests_cant": "needs two first calls to overlap; the harm shows only at later calls", "anchors": ["channel/clienttransport.go:114-151", "channel/servetransport.go:70-93", "clientconn.go:79-97"]}
{"id": "C86", "title": "Recycled read buffers keep connections apart", "statement": "All connections of a process, server side and client side, take their buffered readers from one pool and give them back when they end. What the reading side of a connection is handed is nevertheless, in order and without a gap, what its own socket delivered: never a byte that was left over in a buffer by another connection, and never a byte of another connection read at the same time. And as long as a connection is being read, everything its own socket delivers can still be read, whatever the other connections do.", "quantifier": "for any number of connections opened, read and ended in any order, every interleaving of their readers, every choice of the pool (an old reader, a new one, or dropping some), and every way the bytes arrive", "why_tests_cant": "A leftover byte shows only when a connection ends with bytes in its buffer and the next one is handed that very buffer; a shared buffer only when two connections read at the same moment. sync.Pool makes both a matter of chance.", "anchors": ["reader.go:33-54", "reader.go:77-113", "serveconn.go:377-385", "clientconn.go:485-486"]}
{"id": "C87", "title": "MaxCloseRate", "statement": "With MaxCloseRate set, the sockets of a binding's connections are closed at no more than that rate, whoever closes them: up to any moment at most the burst of the limiter plus one for each 1/MaxCloseRate seconds. Every Close gets its turn. And the end of a connection uses up one turn, so that connections can end at MaxCloseRate per second.", "quantifier": "for any number of connections and goroutines that close them (the connection's own two, handlers, failed writes, kicks by another connection), every interleaving, every burst, at every moment", "why_tests_cant": "A rate can be observed only for the mix of events a test produces. The kicks that go round the limiter happen when clients reconnect with an id in use, and that is just when many sockets are closed at once.", "anchors": ["serveconn.go:755-773", "serveconn.go:148-164", "serveconn.go:377-379", "server.go:156-160", "server.go:455-469", "conf.go:41"]}
{"id": "C88", "title": "Recycled write requests keep writers apart", "statement": "All connections of a process, server side and client side, take the requests through which EndWrite hands over a frame and learns its result from one pool and give them back. EndWrite nevertheless returns the result that was decided for its own frame, never that of another frame or an earlier one; what is taken to be written on a connection are the EndWrite calls queued on that connection, in that order and each once (the bytes that a call which gave up then stands for are the subject of C60); handing a result back never blocks the one who writes; and a call that waits has its result ready or its frame still is to be written. This holds although calls may give up while their request is queued or being written.", "quantifier": "for any number of connections and EndWrite calls, every interleaving of calls and writers, every result, every choice of the pool (an old request, a new one, or dropping some), and calls that give up at any time", "why_tests_cant": "A mix-up needs a request that is put back while somebody still refers to it, and a pool that hands out just this one; it would show as an error reported for a frame that was written, or as a call that hangs.", "anchors": ["serveconn.go:307-310", "serveconn.go:448-540", "serveconn.go:595-619", "serveconn.go:622-680", "clientconn.go:380-416", "clientconn.go:590-772"]}
{"id": "C89", "title": "Failed writes are counted", "statement": "With CounterMetric set, a server connection on which a write to the socket has failed is counted once under writeFrames when its EndWrite calls have returned; a connection on which none failed is not counted there.", "quantifier": "any number of concurrent EndWrite calls, every way they are put together in batches, every outcome of the writes and of the stream logic, every interleaving with reading, closing and kicking", "why_tests_cant": "tests do not set the metrics; a wrong count needs frames of several calls in one batch and a write that fails in the middle of it", "anchors": ["serveconn.go:466-538", "serveconn.go:590-619", "conf.go:49-50"]}
{"id": "C90", "title": "Kicked connections are counted", "statement": "With CounterMetric set, whenever no SetID call is in progress the counter kickoff has been incremented once for each connection that was kicked (OnKickCB called for it), and for no other connection; what is counted is a closed connection whose id another connection took; under error=<nil> no connection is counted twice.", "quantifier": "any number of connections, ids and goroutines, every interleaving of SetID, Close and NotifyWhenClose down to the single map operations, socket closes and counter increments", "why_tests_cant": "tests do not set the metrics; a wrong count needs a SetID that comes between another goroutine's first and last step of closing the connection", "anchors": ["server.go:450-512", "serveconn.go:755-795", "conf.go:49-50"]}
{"id": "C91", "title": "Accepted sockets are prepared, then checked, then served", "statement": "Each TCP socket that the listener of a binding hands out is served once or closed once, not both, and closed exactly if OnAccept is set and returns an error for it. When OnAccept is called and when the socket is served, keep-alive with its period, the configured buffer sizes and the configured TLS have been put on it; OnAccept comes before serving. Nothing that is not configured is done, and nothing to sockets the listener did not hand out.", "quantifier": "every configuration of a binding without overlay network; every sequence of results of the listener's Accept (sockets of other types and errors among them) and of OnAccept, with Shutdown at any point", "why_tests_cant": "tests do not look at the order of these calls, and use few of the configurations", "anchors": ["server.go:210-231", "server.go:281-339", "server.go:363-408"]}
