{
 "claims": [
  {
   "property": "C01",
   "status": "proved",
   "theorems": [
    "C01_frame_round_trip"
   ],
   "note": "all ids, cmds, flags without CodecFlag, all chunkings of the payload, all read splits, any following bytes"
  },
  {
   "property": "C02",
   "status": "proved",
   "theorems": [
    "C02_wire_format",
    "C02_wire_format_any_flags",
    "C02_packet_tool",
    "C02_integers"
   ],
   "note": "bytes equal the doc/frame.md layout; tool/packet too; integers enter the payload most significant byte first"
  },
  {
   "property": "C03",
   "status": "proved",
   "theorems": [
    "C03_chunking_independent"
   ],
   "note": "bufio+ReadFull over an adversarial chunked connection; a truncated tail gives an error"
  },
  {
   "property": "C04",
   "status": "proved",
   "theorems": [
    "C04_frame_size_limit",
    "C04_no_frame_from_short_input",
    "C04_server_default",
    "C04_huge_limit_wraps"
   ],
   "note": "limits in 1..2^32-1 as in the quantifier; C04_huge_limit_wraps shows what happens outside"
  },
  {
   "property": "C05",
   "status": "partial",
   "theorems": [
    "C05_compression_transparent_partial",
    "C05_no_codec",
    "C05_compression_transparent_refuted"
   ],
   "note": "full statement refuted (a codec mapping a non-empty payload to the empty string loses it); proved for codecs that never do that"
  },
  {
   "property": "C06",
   "status": "partial",
   "theorems": [
    "C06_no_payload_leak_partial",
    "C06_pool_no_payload_leak_partial",
    "C06_exact_payloads",
    "C06_no_payload_leak_refuted",
    "C06_pool_no_payload_leak_refuted",
    "C06_pool_no_state_leak"
   ],
   "note": "full statement refuted: a failed EndWrite (ErrNoCodec / codec error) or abandoned bytes leak into the next frame, also through the pool; proved for histories without failed or abandoned writes; exact behaviour proved for all histories"
  },
  {
   "property": "C07",
   "status": "partial",
   "theorems": [
    "C07_request_not_streamed_refuted",
    "C07_request_not_streamed_partial"
   ],
   "note": "full statement refuted: ToNonStream is the identity; proved for callers that pass no stream flag"
  },
  {
   "property": "C08",
   "status": "proved",
   "theorems": [
    "C08_cmd_packing"
   ],
   "note": ""
  },
  {
   "property": "C09",
   "status": "proved",
   "theorems": [
    "C09_ids_never_collide",
    "C09_bound_is_tight"
   ],
   "note": "ids of client (2n+1) and server (2n) counters; C09_bound_is_tight shows where the 64-bit counter wraps"
  },
  {
   "property": "C10",
   "status": "proved",
   "theorems": [
    "C10_mux_routing",
    "C10_opaque_irrelevant"
   ],
   "note": ""
  },
  {
   "property": "C11",
   "status": "partial",
   "theorems": [
    "C11_duplicate_panics_partial",
    "C11_no_silent_replace_partial",
    "C11_duplicate_panics_refuted"
   ],
   "note": "full statement refuted: a cmd with a non-zero opaque byte is checked under a key different from the one used for routing; proved for cmds with opaque byte 0"
  },
  {
   "property": "C12",
   "status": "proved",
   "theorems": [
    "C12_middleware_chain"
   ],
   "note": ""
  },
  {
   "property": "C13",
   "status": "partial",
   "theorems": [
    "C13_refuted",
    "C13_write_exact_prefix_partial"
   ],
   "note": "Refuted in one corner (C13_refuted): writing an empty slice may return an error together with n = 0. Proved for everything else; the result is about calls that return."
  },
  {
   "property": "C14",
   "status": "partial",
   "theorems": [
    "C14_batch_outcome_partial",
    "C14_old_go_refuted",
    "C14_refuted"
   ],
   "note": "Refuted over all Go releases (C14_refuted, C14_old_go_refuted): the code recognises written frames by net.Buffers having cleared their entries, which older releases do not do. Proved for releases that clear them. go.mod says go 1.16; which release began to clear them could not be checked here."
  },
  {
   "property": "C15",
   "status": "proved",
   "theorems": [
    "C15_ws_byte_stream"
   ],
   "note": ""
  },
  {
   "property": "C16",
   "status": "partial",
   "theorems": [
    "C16_ws_write_failure_refuted",
    "C16_ws_write_all_ok_partial",
    "C16_ws_write_failure_partial"
   ],
   "note": "full statement refuted: the message that failed is itself reported as written; proved: no failing message implies all delivered, and exactly the frames after the failing message get an error"
  },
  {
   "property": "C17",
   "status": "partial",
   "theorems": [
    "C17_read_deadline_refuted",
    "C17_read_deadline_partial"
   ],
   "note": "full statement refuted for a non-positive configured timeout (no deadline at all); exact policy proved for all values"
  },
  {
   "property": "C18",
   "status": "partial",
   "theorems": [
    "C18_refuted",
    "C18_no_panic_partial"
   ],
   "note": "full statement refuted: a reset for a stream we opened, then an ordinary frame with the same id, closes a closed channel and panics the process; proved panic-free for every execution in which the peer sends no ordinary frame on a stream it has reset"
  },
  {
   "property": "C19",
   "status": "partial",
   "theorems": [
    "C19_refuted",
    "C19_at_most_once_partial",
    "C19_forgotten_partial",
    "C19_writer_finishes_partial"
   ],
   "note": "full statement refuted: a reset that arrives after our side ended leaves the stream in the table for ever; proved: notified at most once always, and forgotten exactly once, cancelled, when both sides ended and no reset was received for the stream; a write never blocks half-way"
  },
  {
   "property": "C20",
   "status": "partial",
   "theorems": [
    "C20_in_order_exactly_once_partial",
    "C20_refuted",
    "C20_any_peer_partial"
   ],
   "note": "Exact per stream the peer uses properly (nothing but resets after the frame that ends or resets it), whatever it does on other streams; any interleaving. Refuted for a peer that reuses the id of a request that is not answered yet: the second request is dropped (C20_refuted). For every peer: no duplication, order kept, frames only of the stream's id, none to two streams, and a frame is dropped only after the peer ended or reset that stream (C20_any_peer_partial)."
  },
  {
   "property": "C21",
   "status": "proved",
   "theorems": [
    "C21_reset_cancels",
    "C21_others_unaffected"
   ],
   "note": "any stream with that id existing when the reset is read, under any interleaving; other streams and the tables untouched by the reset's steps"
  },
  {
   "property": "C22",
   "status": "partial",
   "theorems": [
    "C22_refuted",
    "C22_no_write_after_end_partial",
    "C22_refused_partial"
   ],
   "note": "full statement refuted: once both sides ended and the stream was forgotten, another frame under the id creates a new stream object and is sent; proved that this is the only way, and that otherwise the write is refused with an error"
  },
  {
   "property": "C23",
   "status": "proved",
   "theorems": [
    "C23_one_outcome",
    "C23_results_agree",
    "C23_own_frame",
    "C23_no_panic",
    "C23_reader_goes_on"
   ],
   "note": "Model/Response.v: one machine for client and server; every interleaving of callers, writer, reader, close and reconnect, arbitrary request ids and frames. Write requests' result channels and their pool are simplified (see the model's header)."
  },
  {
   "property": "C24",
   "status": "proved",
   "theorems": [
    "C24_never_lost",
    "C24_closed_resolves",
    "C24_close_finishes",
    "C24_frame_finds"
   ],
   "note": "Same machine. 'Closed' means the closer has finished and the reader is not in the middle of passing a frame on; C24_close_finishes shows that state is always reached by their own steps."
  },
  {
   "property": "C25",
   "status": "partial",
   "theorems": [
    "C25_reset_ignored",
    "C25_waits",
    "C25_refuted",
    "C25_resolved_by_close_partial"
   ],
   "note": "False of the code: ReadFrame swallows resets, so the IsRst branches of both readers are dead and GetFrame waits until its answer arrives or the connection closes (C25_refuted, C25_waits). Proved part: closing the connection resolves it."
  },
  {
   "property": "C26",
   "status": "proved",
   "theorems": [
    "C26_blocking_order",
    "C26_once",
    "C26_no_overlap",
    "C26_progress"
   ],
   "note": "serve loop machine: readFrames, readFrameCh of any capacity, gate, serve, handler goroutines; order, no overlap, at most once, progress"
  },
  {
   "property": "C27",
   "status": "partial",
   "theorems": [
    "C27_refuted",
    "C27_bound_partial",
    "C27_nonblocking_only_partial",
    "C27_excess_closes_partial",
    "C27_nothing_accepted_after_exit"
   ],
   "note": "refuted as stated: blocking requests decrement the counter without incrementing it; proved: bound m + blocking requests served, so the limit holds on connections without blocking requests, and exceeding it ends serve and closes"
  },
  {
   "property": "C28",
   "status": "proved",
   "theorems": [
    "C28_closed_iff",
    "C28_below_limit_never_closed"
   ],
   "note": "exact characterisation over all timestamp sequences"
  },
  {
   "property": "C29",
   "status": "proved",
   "theorems": [
    "C29_answered_or_reset",
    "C29_reset_sent",
    "C29_no_reset_when_ended"
   ],
   "note": "every handler return/panic; the reset is shown to go out once the queue has been drained by the writer"
  },
  {
   "property": "C30",
   "status": "partial",
   "theorems": [
    "C30_one_writer",
    "C30_wire_order",
    "C30_result_true",
    "C30_one_result",
    "C30_bounded",
    "C30_holder_goes_on",
    "C30_nothing_after_failure",
    "C30_batch_takes_queue",
    "C30_refuted",
    "C30_early_write_hangs",
    "C30_no_deadlock_partial",
    "C30_every_schedule_finishes_partial",
    "C30_completes_partial",
    "C30_after_close"
   ],
   "note": "False of the code in one case: an EndWrite before serve() has set sc.inflight (the connection is visible to WalkConn from newConn on) keeps the write lock until close (C30_refuted, C30_early_write_hangs). Proved without restriction: one writer, order, truthful results, bounded steps, holder never waits, nothing after a failed write, everybody returns after close. Proved when serve ran first (_partial): no deadlock, every maximal schedule finishes with results. That written frames are answered nil after a failed batch assumes a Go release whose net.Buffers clears consumed entries (C14)."
  },
  {
   "property": "C31",
   "status": "partial",
   "theorems": [
    "C31_refuted",
    "C31_released_once_partial",
    "C31_release_comes_partial"
   ],
   "note": "False if an EndWrite overlaps serve()'s store to sc.inflight: the count ends at -1 and the streams are never released (C31_refuted). Proved when serve ran first: released exactly when the reader has quit and no call uses the streams, once, never used after, and the release comes."
  },
  {
   "property": "C32",
   "status": "partial",
   "theorems": [
    "C32_closed_connection_found",
    "C32_refuted",
    "C32_setid_never_returns",
    "C32_binding_lost",
    "C32_found_has_id",
    "C32_ids_partial",
    "C32_setid_turns_partial",
    "C32_untrack_wait"
   ],
   "note": "refuted: SetID racing Close of the same connection leaves a closed connection registered (the next SetID of the id loops for ever), and closing a connection between setting and binding its id removes another connection's binding; proved in full when SetID and Close of one connection are kept apart"
  },
  {
   "property": "C33",
   "status": "proved",
   "theorems": [
    "C33_exactly_once",
    "C33_owing_goroutine_goes_on",
    "C33_kick_callback",
    "C33_kicked_gets_callback",
    "C33_no_panic"
   ],
   "note": "life-cycle machine, any number of goroutines and connections; the callbacks are calls that return"
  },
  {
   "property": "C34",
   "status": "proved",
   "theorems": [
    "C34_exactly_once",
    "C34_no_panic",
    "C34_can_finish",
    "C34_retry_after_listener_error"
   ],
   "note": "any number of Shutdown and OnShutdown calls, any listener failure"
  },
  {
   "property": "C35",
   "status": "partial",
   "theorems": [
    "C35_two_clears_panic",
    "C35_two_sets_lose_a_waiter",
    "C35_refuted",
    "C35_serialised_partial",
    "C35_held_while_on_partial",
    "C35_released_by_clear_partial"
   ],
   "note": "refuted for concurrent SetThrottle/ClearThrottle (double close panics, a waiter is lost); proved when those two are not called at the same time"
  },
  {
   "property": "C36",
   "status": "proved",
   "theorems": [
    "C36_weighted_choice_exact"
   ],
   "note": "non-negative weights with positive sum; exact count over the equally likely draws of rand.Intn"
  },
  {
   "property": "C37",
   "status": "proved",
   "theorems": [
    "C37_no_bookkeeping_panic",
    "C37_one_open_per_slot",
    "C37_close_closes_everything"
   ],
   "note": "every interleaving of calls, connection failures and Close; outcomes of dialing and requests are labels"
  },
  {
   "property": "C38",
   "status": "proved",
   "theorems": [
    "C38_callall_covers",
    "C38_callone"
   ],
   "note": "every completion order of the goroutines; duplicates share one entry"
  },
  {
   "property": "C39",
   "status": "proved",
   "theorems": [
    "C39_failover",
    "C39_reset_on_giving_up",
    "C39_start_rotates"
   ],
   "note": "any number of connections, counter value and failure pattern; the start index advances by one except where the 32-bit counter wraps"
  },
  {
   "property": "C40",
   "status": "partial",
   "theorems": [
    "C40_refuted",
    "C40_dispatch_partial",
    "C40_no_collision_partial",
    "C40_error_answers",
    "C40_end_to_end_partial"
   ],
   "note": "full statement refuted: FQMethod(\"a:b\",\"c\") = FQMethod(\"a\",\"b:c\"); proved for namespaces without ':' (any method names)"
  },
  {
   "property": "C41",
   "status": "proved",
   "theorems": [
    "C41_round_trip",
    "C41_wire_format"
   ],
   "note": ""
  },
  {
   "property": "C42",
   "status": "partial",
   "theorems": [
    "C42_decode_panics_refuted",
    "C42_decode_total_partial",
    "C42_decode_terminates_partial"
   ],
   "note": "full statement refuted: a run of 8 continuation bytes makes varint decoding panic (index out of range); proved panic-free when every 8 consecutive bytes contain one below 0x80; termination proved for the same inputs"
  },
  {
   "property": "C43",
   "status": "partial",
   "theorems": [
    "C43_client_end_dropped_refuted",
    "C43_server_after_end_refuted",
    "C43_refuted",
    "C43_client_closed_after_end_partial",
    "C43_client_first_partial",
    "C43_server_end_partial",
    "C43_no_spurious_end"
   ],
   "note": "full statement refuted: the client Sender drops end=true on every message but the first; the server Sender has no closed state. Proved: client after End, client first message, server end, no spurious end"
  },
  {
   "property": "C44",
   "status": "partial",
   "theorems": [
    "C44_client",
    "C44_client_no_message",
    "C44_server_partial",
    "C44_server_nil_cmd",
    "C44_refuted"
   ],
   "note": "full statement refuted: the server Receiver with cmd=nil consumes the message without decoding it. Client side proved in full; server side for callers that ask for the cmd"
  },
  {
   "property": "C45",
   "status": "partial",
   "theorems": [
    "C45_round_robin_partial",
    "C45_dials_forever_after_close",
    "C45_refuted",
    "C45_stops_at_failure_partial",
    "C45_no_reconnect"
   ],
   "note": "full statement refuted: a reconnecting connection closed while its server is reachable dials forever. Round-robin proved; stops at first failed dial proved; non-reconnecting connections proved"
  },
  {
   "property": "C46",
   "status": "partial",
   "theorems": [
    "C46_refuted",
    "C46_first_connection_panics",
    "C46_later_connections_partial"
   ],
   "note": "full statement refuted: on the connection made by the constructor all three calls panic; proved for every later connection"
  },
  {
   "property": "C47",
   "status": "partial",
   "theorems": [
    "C47_refuted",
    "C47_reconnect_never_tls",
    "C47_new_connection_partial"
   ],
   "note": "full statement refuted: NewConnectionWithReconnect and reconnects never pass TLSConf; proved for NewConnection"
  },
  {
   "property": "C48",
   "status": "partial",
   "theorems": [
    "C48_refuted",
    "C48_reader_returns_partial",
    "C48_plain_requests_partial"
   ],
   "note": "full statement refuted: when the reader is in AddInFrame at close and the select takes ctx.Done, it then waits on Stream.Done() which never fires; proved for conforming peers and a reader not yet in that wait, and without help from handlers when each stream is one frame"
  },
  {
   "property": "C49",
   "status": "proved",
   "theorems": [
    "C49_backoff",
    "C49_refused_connections",
    "C49_only_its_own_round",
    "C49_returns_when_done"
   ],
   "note": "every sequence of accept outcomes; errors that are not temporary neither advance nor reset the delay"
  },
  {
   "property": "C50",
   "status": "partial",
   "theorems": [
    "C50_server",
    "C50_refuted",
    "C50_client_partial",
    "C50_closed_not_known"
   ],
   "note": "proved for the server; refuted on the client for the second and later frames of a batch (checkExist ignored there), proved on the client for the first frame of a batch"
  },
  {
   "property": "C51",
   "status": "partial",
   "theorems": [
    "C51_hangs_forever",
    "C51_refuted",
    "C51_kick_write_returns_partial"
   ],
   "note": "False of the code: a failed write racing with the kick, or a failed write inside OnKickCB followed by a second EndWrite, deadlocks the kick forever (C51_refuted, C51_hangs_forever). Proved part: while no write has failed, the callback's EndWrite can return."
  },
  {
   "property": "C52",
   "status": "partial",
   "theorems": [
    "C52_wire_order",
    "C52_result_true",
    "C52_one_result",
    "C52_hangs",
    "C52_refuted",
    "C52_every_schedule_finishes_partial",
    "C52_completes_partial",
    "C52_reconnect_completes_partial",
    "C52_link_up_completes"
   ],
   "note": "Refuted for reconnecting connections with WriteFrameChSize > 0 (C52_refuted, C52_hangs): a call made by a handler, SubFunc or callback just after the link is lost, or by anyone after Close and a failed dial, may be queued with no writer left and never return. Proved: order, at most once, truth of results; termination of every schedule without reconnecting or with an unbuffered queue; completion after one successful dial when no handler or callback runs. That written frames are answered nil after a failed batch assumes a Go release whose net.Buffers clears consumed entries (C14)."
  },
  {
   "property": "C53",
   "status": "partial",
   "theorems": [
    "C53_never_reconnects",
    "C53_refuted",
    "C53_reconnects_partial",
    "C53_dial_after_all"
   ],
   "note": "Refuted (C53_refuted, C53_never_reconnects): loop waits for the handler, the handler waits for the writer that has quit. Proved: dialing comes only after reader, writer and handlers have returned; with none running and not closed the library reconnects given a successful dial."
  },
  {
   "property": "C54",
   "status": "partial",
   "theorems": [
    "C54_flag_bits",
    "C54_server_route",
    "C54_client_route",
    "C54_request_reaches_handler_partial",
    "C54_server_request_reaches_handler_partial",
    "C54_stream_request_reaches_handler_partial",
    "C54_push_request_not_handled",
    "C54_refuted"
   ],
   "note": "Refuted (C54_refuted): the client reader gives up on blocking requests and on odd ids nobody waits for, and a request made with the push flag never reaches the Handler (C54_push_request_not_handled). Proved: all flag predicates and setters against a bit table, both routings completely (link not closed), requests without push and codec flags end to end, streamed requests too. That ReadFrame swallows resets before they are routed is in C25."
  },
  {
   "property": "C55",
   "status": "partial",
   "theorems": [
    "C55_client_quits",
    "C55_server_serves_it",
    "C55_refuted",
    "C55_dropped_partial"
   ],
   "note": "Refuted (C55_refuted): a client that has a Handler ends the connection on such a frame (C55_client_quits), and a server hands it to its Handler as a request (C55_server_serves_it). Proved for clients without a Handler."
  },
  {
   "property": "C56",
   "status": "partial",
   "theorems": [
    "C56_late_serve_accepts",
    "C56_accepted_before_served_after",
    "C56_refuted",
    "C56_accepts_no_more_partial",
    "C56_returns_only_when_ended",
    "C56_down_for_good_partial",
    "C56_serve_returns_partial",
    "C56_shutdown_returns",
    "C56_failed_shutdown_half_closed"
   ],
   "note": "Refuted (C56_refuted): a Serve call that starts after Shutdown accepts and serves for good (C56_late_serve_accepts); a connection accepted just before is served after Shutdown returned (C56_accepted_before_served_after). Proved for Serve calls that had registered their listener; also that a failed Shutdown leaves earlier bindings half closed."
  },
  {
   "property": "C57",
   "status": "partial",
   "theorems": [
    "C57_call_sends_twice",
    "C57_callone_sends_twice",
    "C57_refuted",
    "C57_bounds_partial",
    "C57_once_partial",
    "C57_callall_once_partial",
    "C57_frame_was_requested"
   ],
   "note": "Refuted (C57_refuted): Call sends the request again when the wait for its response fails, also when that is because the context expired (C57_call_sends_twice); CallOne may send twice when Request returns an error with the frame already on the wire (C57_callone_sends_twice). Proved: bounds 4 / 2 / 2 per endpoint, and at most once for CallOne and CallAll if a failing Request has written nothing. What the call sees of the shared connection table is an input of the model, so the proof covers every interleaving but the refuting inputs are not derived from Model/Api.v."
  },
  {
   "property": "C58",
   "status": "partial",
   "theorems": [
    "C58_accept_after_close",
    "C58_serves_upgrades_after_close",
    "C58_connection_let_go",
    "C58_refuted",
    "C58_nothing_lost_partial",
    "C58_fifo",
    "C58_never_stuck_after_close"
   ],
   "note": "Refuted (C58_refuted): Accept may return a connection after Close (C58_accept_after_close), any number even of later upgrades (C58_serves_upgrades_after_close), and a handler lets its connection go at Close (C58_connection_let_go). Proved: each upgraded connection is in exactly one place, none is let go before Close, FIFO, no blocking after Close."
  },
  {
   "property": "C59",
   "status": "partial",
   "theorems": [
    "C59_call_returns_output_partial",
    "C59_marshaler_output_never_arrives",
    "C59_refuted"
   ],
   "note": "Refuted (C59_refuted): the generator takes the output type from the list of input types when it generates the server's side, so outputs are always written as JSON there, while the client decodes an output with its own Unmarshal if it has one (C59_marshaler_output_never_arrives). Proved for output types without their own Marshal and Unmarshal."
  },
  {
   "property": "C60",
   "status": "partial",
   "theorems": [
    "C60_other_connection_leaks",
    "C60_refuted",
    "C60_unchanged_partial",
    "C60_open_partial",
    "C60_reconnecting_partial",
    "C60_nil_own_frame",
    "C60_gives_up_only_when_done"
   ],
   "note": "Refuted (C60_refuted, C60_other_connection_leaks): when a connection's context is cancelled, EndWrite returns while its frame is still queued or being written; the writer is put back into the pool, and what the next user builds, for any connection, is written instead. Proved for calls that did not give up, for connections whose context is not cancelled, and for reconnecting client connections; a nil result always means that the own frame was written."
  },
  {
   "property": "C61",
   "status": "partial",
   "theorems": [
    "C61_response_lost",
    "C61_refuted",
    "C61_no_handler_left_partial",
    "C61_answered_until_serve_returns_partial",
    "C61_too_late",
    "C61_shutdown_returns"
   ],
   "note": "Refuted (C61_refuted, C61_response_lost): when Serve returns, its deferred cancel ends the contexts of all connections, so their serve loops close them under running handlers, whose EndWrite then fails; nothing written afterwards is sent (C61_too_late). Proved: responses go out until Serve has returned; no handler is running when Shutdown has returned; Shutdown returns once the handlers have. One binding whose listener is registered (otherwise: C56)."
  },
  {
   "property": "C62",
   "status": "partial",
   "theorems": [
    "C62_failed_listen_leaves_open",
    "C62_wrong_type_lost",
    "C62_refuted",
    "C62_registered_closed",
    "C62_listen_partial",
    "C62_failed_listen_partial",
    "C62_accepted_partial",
    "C62_options",
    "C62_serve_ends"
   ],
   "note": "Refuted (C62_refuted): when the listen call of a later binding fails, the sockets of the earlier ones stay open and Shutdown does not know them (C62_failed_listen_leaves_open); a connection that is not a TCPConn is neither served nor closed (C62_wrong_type_lost). Proved: every binding gets its listener as configured, which sockets are left open exactly, all TCP connections are served or closed, the options set. What an OverlayNetwork does with the listener is in C58. C62_registered_closed: Shutdown closes exactly the sockets that a Serve has registered."
  },
  {
   "property": "C63",
   "status": "proved",
   "theorems": [
    "C63_any_fields",
    "C63_kept",
    "C63_wrong_type_refused"
   ],
   "note": "The goroutine stack is taken as unbounded (skipRpc is recursive in the nesting of groups)."
  },
  {
   "property": "C64",
   "status": "partial",
   "theorems": [
    "C64_frames_as_asked_partial",
    "C64_after_compressed",
    "C64_codec_lost",
    "C64_after_reset",
    "C64_refuted"
   ],
   "note": "Refuted (C64_refuted): StartWrite of a StreamWriter keeps the flags of the frame before. After EndWriteCompressed the codec mark stays, so that without a codec every later non-empty EndWrite fails (C64_after_compressed); an empty opening frame loses the codec mark for the whole stream (C64_codec_lost); whatever is written after ResetFrame is another reset (C64_after_reset). Proved when no frame of the stream is compressed or all are."
  },
  {
   "property": "C65",
   "status": "partial",
   "theorems": [
    "C65_one_stream_holds_up_all",
    "C65_refuted",
    "C65_first_frames_and_resets_partial",
    "C65_later_frames_partial"
   ],
   "note": "refuted: a frame after the first is handed over by the reader itself, so a handler that does not receive - or that returned after the first frame, even when its reset is already on the wire - stops the whole connection until it is closed (C65_refuted, C65_one_stream_holds_up_all); proved: first frames and resets never wait (C65_first_frames_and_resets_partial), a later frame waits for one receive on its own stream and nothing else (C65_later_frames_partial)"
  },
  {
   "property": "C66",
   "status": "partial",
   "theorems": [
    "C66_late_answer_crashes_client",
    "C66_refuted",
    "C66_frames_cross",
    "C66_next_frame_arrives",
    "C66_no_crash_partial",
    "C66_stream_crosses_partial",
    "C66_call_partial"
   ],
   "note": "refuted: a handler that returns and whose goroutine answers later makes the server send a reset and then the answer, on which the client process panics (C66_refuted, C66_late_answer_crashes_client); proved: the frames cross unchanged, in order and none lost (C66_frames_cross, C66_next_frame_arrives); no crash as long as the other side sends no ordinary frame on a stream after its reset (C66_no_crash_partial); streams and calls for a sender that sends nothing but resets on a stream after its end (C66_stream_crosses_partial, C66_call_partial)"
  },
  {
   "property": "C67",
   "status": "proved",
   "theorems": [
    "C67_own_answer",
    "C67_sent_once",
    "C67_handled_once",
    "C67_delivered",
    "C67_first_answer"
   ],
   "note": "Simplified: what the server writes is on the wire at once, a handler may answer from the moment its request is bound; the client registers a batch before it is given to the network, as in the code. C67_delivered and C67_first_answer are about Request (not StreamRequest)"
  },
  {
   "property": "C68",
   "status": "partial",
   "theorems": [
    "C68_result_of_the_method_partial",
    "C68_errors_become_outputs",
    "C68_refuted"
   ],
   "note": "Refuted (C68_refuted, C68_errors_become_outputs): an error cmd above 0xffffff, which NewWithCmd accepts, is cut to 24 bits on the wire, so the caller takes the text of an error for the output. Proved for all error cmds that fit. Methods are functions of their input; what they do besides is not modelled"
  },
  {
   "property": "C69",
   "status": "proved",
   "theorems": [
    "C69_sockets",
    "C69_socket_in_use"
   ],
   "note": "Overlay networks other than the websocket one of this repository are not modelled; net.DialTimeout, tls Handshake and websocket.Dialer.Dial are described by their contracts"
  },
  {
   "property": "C70",
   "status": "partial",
   "theorems": [
    "C70_tls_unbounded",
    "C70_ws_unbounded",
    "C70_refuted",
    "C70_reuse_ignores_options",
    "C70_time_and_options_partial"
   ],
   "note": "Refuted (C70_refuted): the TLS handshake (C70_tls_unbounded) and the websocket upgrade (C70_ws_unbounded) have no time limit; NewReusedConnection asks for no buffer sizes (C70_reuse_ignores_options). Proved for TCP without TLS, for every dial of a reconnecting connection over TCP, and the buffer sizes for TCP and websockets"
  },
  {
   "property": "C71",
   "status": "proved",
   "theorems": [
    "C71_ends",
    "C71_counter",
    "C71_latency"
   ],
   "note": "A panic(nil) is what recover() says it is: a normal end. Between the end of a blocking handler and its deferred function, that end is not yet counted. The counter of failed writes is C89; the counter of kicked connections is not modelled"
  },
  {
   "property": "C72",
   "status": "partial",
   "theorems": [
    "C72_all_returned_partial",
    "C72_returns_while_serving",
    "C72_never_returns",
    "C72_refuted",
    "C72_returns_partial",
    "C72_nothing_served_partial"
   ],
   "note": "C72_refuted; C72_returns_while_serving: with two bindings, a connection accepted just before Shutdown is still served when ServeAll has returned; C72_never_returns: a Serve that registers its listener after Shutdown keeps ServeAll waiting forever. Partial: when ServeAll returns every Serve has returned and every listener is closed (always); if all Serve calls had registered before Shutdown, ServeAll is never stuck once no connection is served and has boundedly many actions left; if moreover no Accept had just returned, nothing is served when it returns."
  },
  {
   "property": "C73",
   "status": "partial",
   "theorems": [
    "C73_subscriber_partial",
    "C73_not_blocked_partial",
    "C73_not_an_answer",
    "C73_no_subscriber",
    "C73_push_ids",
    "C73_refuted"
   ],
   "note": "C73_refuted: a client that writes a frame with PushFlag and StreamRstFlag under the id of a message its reader is working on makes the next message with this id disappear. Partial: true for all executions in which the client writes no such frame (order, exactly once, completeness, and the reader gets done with each message by its own steps). That no call gets a message and that GetPushID's numbers are distinct holds without this restriction. SubFunc is assumed to return."
  },
  {
   "property": "C74",
   "status": "proved",
   "theorems": [
    "C74_by_id",
    "C74_by_id_ends",
    "C74_info",
    "C74_all",
    "C74_all_ends",
    "C74_given_closed"
   ],
   "note": "sync.Map.Range is taken by its documented contract; f does not panic. C74_given_closed: by C32's race f can be given a connection that was closed before the walk began (not excluded by the statement)."
  },
  {
   "property": "C75",
   "status": "partial",
   "theorems": [
    "C75_refuted",
    "C75_order_partial",
    "C75_kick",
    "C75_monotone"
   ],
   "note": "C75_refuted: the counter is loaded after the id is bound, so a kick in between gives the kicked connection an order as great as or greater than its successor's. Partial: true whenever the SetID of the connection found under the id had returned by the moment it is found (the order is then greater than all returned so far, for any id). The claims about kick and about successive orders hold without restriction."
  },
  {
   "property": "C76",
   "status": "partial",
   "theorems": [
    "C76_accepted_iff_partial",
    "C76_sub",
    "C76_refuted"
   ],
   "note": "C76_refuted: with any sub service Output panics (C76_sub: the method printed for it has no parameter list). C76_accepted_iff_partial says exactly when the file is accepted: one main service and no sub service, the service name an identifier that begins with an upper-case letter, every input and output type has a name (pointers, slices and maps do not), no method is called Client, no package of the service is called context or qrpc (their names are in the fixed text) and none has the name of a declaration. 'Accepted' is Spec/GoFile.v: conditions on names, types, imports, signatures and the methods called on inputs and outputs; other statements in the fixed text, and variables that hide package names, are not looked at. Assumed of reflection and of the protoc generator library: names are identifiers, package names are unique, pointers to contexts are no Marshalers, a variable of a type has the methods reflection finds for a pointer to it."
  },
  {
   "property": "C77",
   "status": "partial",
   "theorems": [
    "C77_refuted",
    "C77_in_order_partial",
    "C77_next_receive_partial",
    "C77_own_id_partial",
    "C77_values_partial"
   ],
   "note": "C77_refuted: when the connection is lost, Receive returns ErrStreamFinished like at the end of a complete stream, although a message whose Send succeeded never arrived. Partial (for a Sender on which no Send succeeds after End, after a Send with end, or after the handler returned): messages arrive in order and once, at one stream; ErrStreamFinished while the reader of the connection has not stopped means that all have arrived; once the sender's frames have been read, a Receiver that was called has had all; a message that was read is what the next Receive returns; values decode to those sent when Receive is given a cmd pointer; every Sender has a request id of its own. 'Send succeeded' is: the writer accepted the frame."
  },
  {
   "property": "C78",
   "status": "partial",
   "theorems": [
    "C78_refuted",
    "C78_handlers_contained_partial",
    "C78_close_returns_partial",
    "C78_calls_partial",
    "C78_kick_once_partial",
    "C78_kick_panic_leaks"
   ],
   "note": "C78_refuted: a function registered with NotifyWhenClose that panics in the goroutine that reads frames (which closes the connection when the peer hangs up) ends the process. C78_kick_panic_leaks: after a panic of OnKickCB, even recovered in a handler, the kicked connection is neither closed nor found any more, its context is never cancelled (so Shutdown waits for ever) and no Close on it returns. Partial: a panic in a goroutine that runs a handler never ends the process; Close can return for every connection whose OnKickCB did not panic; the functions of a connection are each called once except those after one that panicked. Assumed: util.GoFunc does not recover."
  },
  {
   "property": "C79",
   "status": "partial",
   "theorems": [
    "C79_own_answer_partial",
    "C79_sent_once_partial",
    "C79_handled_once_partial",
    "C79_delivered_partial",
    "C79_first_answer_partial",
    "C79_refuted"
   ],
   "note": "C79_refuted: a frame under one of the server's own ids that belongs to no pending call is given to the server's handler as if it were a request. So when a client's handler writes two frames for one request, the server's handler is called with the second, and if it answers, the client's handler is called again for the same call. Partial: everything in the statement, when no handler of the server answers a frame that came under one of the server's own ids (such a frame is recognised by FromServer). C79_delivered_partial and C79_first_answer_partial are about Request (not StreamRequest)."
  },
  {
   "property": "C80",
   "status": "proved",
   "theorems": [
    "C80_accept_first",
    "C80_refused_not_handled",
    "C80_close_last",
    "C80_close_comes",
    "C80_refused_closed"
   ],
   "note": "C80_accept_first, C80_refused_not_handled: OnAccept. C80_close_last: at most once (nothing of the connection comes after), after the close and after all calls have returned. C80_close_comes: a continuation by this connection's own actions reaches OnClose from every state where the reader has returned and no handler runs (a reader that never returns is C48's matter); C80_refused_closed: refused connections. Callbacks that panic are excluded by the model's contract (C78 is about those)."
  },
  {
   "property": "C81",
   "status": "partial",
   "theorems": [
    "C81_refuted",
    "C81_late_calls",
    "C81_in_turns_partial",
    "C81_own_link_partial",
    "C81_returned_partial"
   ],
   "note": "C81_refuted: the reader is started before OnConnect is called, so a pushed message can reach SubFunc first; C81_late_calls: buffered pushes and goroutines that were already started call SubFunc and handlers after OnDisconnect. Partial: everything else in the statement, and every call lies between the dial of its own link and the next dial, or the return of Wait."
  },
  {
   "property": "C82",
   "status": "partial",
   "theorems": [
    "C82_refuted",
    "C82_no_panic_partial"
   ],
   "note": "C82_refuted: readFrames tests conn.rwc for nil and then reads it again, with no lock; when closeRWC comes in between (Close right after NewConnection), a nil net.Conn is used in a goroutine with no recover. Partial: no such panic in any execution where the socket is not closed between the two reads. Panics of user code and of the standard library are not in this model."
  },
  {
   "property": "C83",
   "status": "partial",
   "theorems": [
    "C83_refuted",
    "C83_wrong_length",
    "C83_two_streams",
    "C83_end_partial",
    "C83_in_turn_partial"
   ],
   "note": "C83_refuted: Send takes only the read lock, and all Sends fill one buffer: two that overlap make one frame with the bytes of both. C83_wrong_length: the length field may be that of one of them, so the peer takes payload for the next header. C83_two_streams: two first Sends open two streams. Partial: C83_end_partial (nothing after End's reset, with any overlap) and C83_in_turn_partial (Sends that do not overlap, from any goroutines, with End at any moment)."
  },
  {
   "property": "C84",
   "status": "partial",
   "theorems": [
    "C84_refuted",
    "C84_asked_partial",
    "C84_sent_partial",
    "C84_dialed_partial",
    "C84_no_panic_partial",
    "C84_dials_for_nothing"
   ],
   "note": "C84_refuted: with the push flag (-f 16) Request returns a nil Response and no error, and the tool dereferences it after the frame was sent. C84_dials_for_nothing: a flag out of range is noticed only after dialing. Partial: C84_asked_partial (right form, no push flag), C84_sent_partial (nothing is sent for any other), C84_dialed_partial (nothing is dialed unless address and cmd have the right form), C84_no_panic_partial."
  },
  {
   "property": "C85",
   "status": "partial",
   "theorems": [
    "C85_refuted",
    "C85_receiver_useless",
    "C85_receiver_useless_case",
    "C85_client_once_partial",
    "C85_first_alone_partial"
   ],
   "note": "C85_refuted: on the server's side two Receives that overlap before the first message was returned both return it. C85_receiver_useless: on the client's side, when two overlap before the first message and one of them gives up, it sets firstFrame back to nil; from then on no Receive can return but by its context, although messages are there. Partial: C85_first_alone_partial (the whole statement, when no other Receive is called until one has returned the first message), C85_client_once_partial (on the client's side, with any overlap: a message is returned once, none passed over, and ErrStreamFinished comes last)."
  },
  {
   "property": "C86",
   "status": "proved",
   "theorems": [
    "C86_own_bytes",
    "C86_none_lost"
   ],
   "note": "Model/ReadPool.v: bufPool, NewReaderWithTimeout, Finalize and the reads between them, any number of connections. sync.Pool is modelled by its contract (any element or a new one; an element is given to one taker)."
  },
  {
   "property": "C87",
   "status": "partial",
   "theorems": [
    "C87_refuted",
    "C87_one_turn_refuted",
    "C87_rate_partial",
    "C87_ends_partial",
    "C87_half_rate_partial",
    "C87_period_partial",
    "C87_turn_comes"
   ],
   "note": "Two parts are false of the code. C87_refuted: bindID closes the sockets of kicked connections without a turn of the limiter, so any number can be closed at one moment. C87_one_turn_refuted: a connection that ends by a read error is closed by readFrames and again by serve, and takes two turns. Proved: sockets closed, kicks not counted, keep to the rate (C87_rate_partial); the ends of connections (serve over, before OnClose) keep to it, kicked or not (C87_ends_partial); connections that end by read errors end at no more than half the rate (C87_half_rate_partial); turns in any period (C87_period_partial); a waiting Close can have a turn after 1/MaxCloseRate seconds (C87_turn_comes). The limiter is third-party code and modelled by its contract. A socket refused by OnAccept is closed by the accept loop and is not a connection yet."
  },
  {
   "property": "C88",
   "status": "proved",
   "theorems": [
    "C88_own_result",
    "C88_own_frames",
    "C88_no_block",
    "C88_none_lost"
   ],
   "note": "Model/WriteReq.v: wfrPool and the life of a write request on any number of connections; which result a frame gets is open (C14, C30, C52). This is also the ground for taking requests to be fresh in Model/WriteCombine.v and Model/ClientWrite.v. A frame stands for its EndWrite call; its bytes, and what becomes of them when the call gave up and its writer is used again, are in C60. Left out: ErrNoNewUUID, which needs two equal request ids (C09: they never collide). sync.Pool is modelled by its contract."
  },
  {
   "property": "C89",
   "status": "partial",
   "theorems": [
    "C89_refuted",
    "C89_counts_refused",
    "C89_errors_partial",
    "C89_once_partial",
    "C89_own_error_partial"
   ],
   "note": "C89_refuted: the error of the batch is overwritten by the result of the writer's own frame, so a write that failed after this frame is not counted. C89_counts_refused: a frame refused by the stream logic, with nothing wrong on the connection, is counted. Proved: counts are made by different EndWrite calls, each of which returns an error (C89_errors_partial); after a failed write there is at most one more count (C89_once_partial); the call whose write failed is counted exactly if its own EndWrite returns an error (C89_own_error_partial)."
  },
  {
   "property": "C90",
   "status": "partial",
   "theorems": [
    "C90_refuted",
    "C90_counted_twice",
    "C90_counted_forever",
    "C90_kicked_counted_partial",
    "C90_counted_closed",
    "C90_no_error_once",
    "C90_exact_partial"
   ],
   "note": "C90_refuted: a SetID that finds a connection which is closing itself counts it as kicked. C90_counted_twice: two SetID calls that find the same connection both count it. C90_counted_forever: after the race of C32 one SetID call counts a connection that was never kicked as often as one likes. Proved: a kicked connection is never left out (C90_kicked_counted_partial); what is counted is closed and lost its id to another connection (C90_counted_closed); at most once under error=<nil> (C90_no_error_once); exact in executions where no SetID comes to a connection whose closing has begun (C90_exact_partial)."
  },
  {
   "property": "C91",
   "status": "proved",
   "theorems": [
    "C91_settled",
    "C91_prepared",
    "C91_own_sockets",
    "C91_as_configured"
   ],
   "note": "Once each, served or closed (C91_settled); options, TLS and OnAccept come first (C91_prepared); no other socket is touched (C91_own_sockets); only what is configured is done (C91_as_configured). Sockets of another type are lost: that is in C62."
  }
 ]
}