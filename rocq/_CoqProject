-Q theories Verif
theories/Model/Accept.v
theories/Model/AcceptSock.v
theories/Model/Api.v
theories/Model/ApiCall.v
theories/Model/BufReuse.v
theories/Model/Call.v
theories/Model/ChanPair.v
theories/Model/ChanShared.v
theories/Model/Channel.v
theories/Model/ClientHooks.v
theories/Model/ClientWrite.v
theories/Model/CloseRate.v
theories/Model/Codegen.v
theories/Model/ConnWriter.v
theories/Model/Dial.v
theories/Model/FirstFrame.v
theories/Model/FrameReader.v
theories/Model/FrameWriter.v
theories/Model/Generated.v
theories/Model/Generator.v
theories/Model/GoBase.v
theories/Model/Graceful.v
theories/Model/Group.v
theories/Model/Hooks.v
theories/Model/Ids.v
theories/Model/KickMetric.v
theories/Model/KickOrder.v
theories/Model/Lifecycle.v
theories/Model/Listen.v
theories/Model/Machine.v
theories/Model/Metrics.v
theories/Model/Mux.v
theories/Model/Pair.v
theories/Model/Panics.v
theories/Model/Pb.v
theories/Model/Push.v
theories/Model/Qrpc.v
theories/Model/Qrpcurl.v
theories/Model/ReadPool.v
theories/Model/Reader.v
theories/Model/RecvShared.v
theories/Model/Response.v
theories/Model/Route.v
theories/Model/Rpc.v
theories/Model/Serve.v
theories/Model/ServeAll.v
theories/Model/ServerCall.v
theories/Model/Shutdown.v
theories/Model/Sockets.v
theories/Model/Stream.v
theories/Model/Throttle.v
theories/Model/Walk.v
theories/Model/WriteCombine.v
theories/Model/WriteMetrics.v
theories/Model/WriteReq.v
theories/Model/WsConn.v
theories/Model/WsListener.v
theories/Proofs/ApiP.v
theories/Proofs/Bits.v
theories/Proofs/BufReuseP.v
theories/Proofs/CallP.v
theories/Proofs/CallQ.v
theories/Proofs/CallR.v
theories/Proofs/CallS.v
theories/Proofs/ChanP.v
theories/Proofs/ClientWriteP.v
theories/Proofs/ClientWriteQ.v
theories/Proofs/CodecP.v
theories/Proofs/ConnWriterP.v
theories/Proofs/FrameReaderP.v
theories/Proofs/HooksP.v
theories/Proofs/LifecycleP.v
theories/Proofs/PairP.v
theories/Proofs/PbP.v
theories/Proofs/PushP.v
theories/Proofs/PushQ.v
theories/Proofs/ReaderP.v
theories/Proofs/RespE.v
theories/Proofs/ResponseP.v
theories/Proofs/SCallP.v
theories/Proofs/SCallQ.v
theories/Proofs/SCallR.v
theories/Proofs/SCallS.v
theories/Proofs/StreamI.v
theories/Proofs/StreamP.v
theories/Proofs/StreamQ.v
theories/Proofs/StreamR.v
theories/Proofs/StreamS.v
theories/Proofs/WriteCombineP.v
theories/Proofs/WriteCombineQ.v
theories/Proofs/Writer.v
theories/Proofs/WsP.v
theories/Props/Accept.v
theories/Props/AcceptSock.v
theories/Props/Api.v
theories/Props/ApiCall.v
theories/Props/BufReuse.v
theories/Props/Call.v
theories/Props/ChanPair.v
theories/Props/ChanShared.v
theories/Props/Channel.v
theories/Props/ClientHooks.v
theories/Props/ClientWrite.v
theories/Props/CloseRate.v
theories/Props/Codec.v
theories/Props/Codegen.v
theories/Props/Dial.v
theories/Props/Generated.v
theories/Props/Generator.v
theories/Props/Graceful.v
theories/Props/Group.v
theories/Props/HeadOfLine.v
theories/Props/Hooks.v
theories/Props/Ids.v
theories/Props/Io.v
theories/Props/KickMetric.v
theories/Props/KickOrder.v
theories/Props/Lifecycle.v
theories/Props/Listen.v
theories/Props/Metrics.v
theories/Props/Mux.v
theories/Props/Pair.v
theories/Props/Panics.v
theories/Props/Pb.v
theories/Props/PbFields.v
theories/Props/Push.v
theories/Props/Qrpcurl.v
theories/Props/ReadPool.v
theories/Props/RecvShared.v
theories/Props/Response.v
theories/Props/Route.v
theories/Props/Rpc.v
theories/Props/Serve.v
theories/Props/ServeAll.v
theories/Props/ServerCall.v
theories/Props/Shutdown.v
theories/Props/Sockets.v
theories/Props/Stream.v
theories/Props/StreamWriter.v
theories/Props/Throttle.v
theories/Props/Walk.v
theories/Props/WriteCombine.v
theories/Props/WriteMetrics.v
theories/Props/WriteReq.v
theories/Props/WsListener.v
theories/Spec/FrameSpec.v
theories/Spec/GoFile.v
theories/Spec/OrderSpec.v
theories/Spec/PbFields.v
theories/Spec/PbSpec.v
theories/Spec/StreamSpec.v
theories/Spec/SwSpec.v
theories/Spec/WriterSpec.v
