-Q theories Verif
theories/Base.v
theories/Iface.v
theories/Prim.v
theories/Fixnum.v
theories/Utf8.v
theories/Comb.v
theories/Tuple.v
theories/Io.v
theories/Spec.v
theories/Lib.v
theories/DecPrim.v
theories/DecComb.v
theories/DecComb2.v
theories/EncPrim.v
theories/EncComb.v
theories/Drive.v
theories/EncComb2.v
theories/NumSpec.v
theories/NumProofs.v
theories/Utf8Spec.v
theories/Utf8Proofs.v
theories/Universe.v
theories/UniverseProofs.v
theories/Sound.v
theories/SoundProofs.v
theories/Session.v
theories/CodecProofs.v
theories/Examples.v
theories/Props_Codec.v
theories/Props_Base.v
theories/Props_Num.v
theories/Contract.v
theories/Safe.v
theories/SafeProofs.v
theories/SafeEnc.v
theories/Props_Safe.v
theories/Observe.v
theories/ObserveProofs.v
theories/Props_Comb.v
theories/Props_Tuple.v
theories/Props_Seq.v
theories/Props_Enc.v
theories/Props_Adapt.v
theories/Props_Guard.v
theories/Trunc.v
theories/TruncProofs.v
theories/Props_Trunc.v
theories/EncCut.v
theories/Props_Cut.v
theories/IoSpec.v
theories/IoProofs.v
theories/Props_Io.v
theories/Link.v
theories/LinkProofs.v
theories/Props_Link.v
theories/Live.v
theories/LiveProofs.v
theories/Props_Collect.v
theories/Steady.v
theories/SteadyProofs.v
theories/Props_Steady.v
theories/SliceSpec.v
theories/Honest.v
theories/SliceProofs.v
theories/Props_Slice.v
theories/Fuel.v
theories/FuelProofs.v
theories/Returns.v
theories/ReturnsProofs.v
theories/Props_Returns.v
theories/Writes.v
theories/WritesProofs.v
theories/Props_Writes.v
theories/Sized.v
theories/Props_Sized.v
theories/Serde.v
theories/Props_Serde.v
theories/Exact.v
theories/ExactProofs.v
theories/Props_Exact.v
theories/Props_Drivers.v
theories/Props_Retry.v
theories/Local.v
theories/LocalProofs.v
theories/Props_Local.v
theories/Props_Spent.v
theories/Conformance.v
theories/Props_Reject.v
theories/Eager.v
theories/EagerProofs.v
theories/EagerFull.v
theories/FillProofs.v
theories/Props_Eager.v
theories/Props_Verdict.v
theories/Kinds.v
theories/KindsProofs.v
theories/Props_Kinds.v
theories/Custom.v
theories/CustomProofs.v
theories/Props_Custom.v
theories/Aftermath.v
theories/Props_Aftermath.v
theories/Midway.v
theories/Props_Midway.v
theories/Wake.v
theories/Iter.v
theories/Props_Iter.v
theories/Props_IterCut.v
theories/Props_Wake.v
theories/Twin.v
theories/TwinProofs.v
theories/Props_Twin.v
theories/Extend.v
theories/Props_Extend.v
theories/Closures.v
theories/Props_Closures.v
theories/Memory.v
theories/Props_Memory.v
theories/Props_Laws.v
theories/Props_Laws2.v
theories/Props_Laws3.v
theories/Props_Laws4.v
theories/Props_Laws5.v
theories/Release.v
theories/RelProofs.v
theories/Props_Release.v
theories/Props_Tail.v
theories/Work.v
theories/Props_Work.v
theories/Panics.v
theories/Props_Panics.v
theories/Agree.v
theories/Props_Agree.v
theories/Duplex.v
theories/DuplexProofs.v
theories/Props_Duplex.v
theories/Rpc.v
theories/RpcProofs.v
theories/Props_Rpc.v
theories/Receive.v
theories/Props_Receive.v
theories/EagerSum.v
theories/Props_Over.v
theories/Relay.v
theories/Props_Relay.v
theories/Proto.v
theories/Props_Proto.v
theories/Task.v
theories/Props_Task.v
theories/Props_TaskSend.v
theories/Producer.v
theories/Props_Producer.v
theories/Service.v
theories/Props_Service.v
theories/Nap.v
theories/Props_Nap.v
theories/Props_NapTask.v
theories/Blocking.v
theories/Props_Blocking.v
