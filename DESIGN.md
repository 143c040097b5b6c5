# Formal model of sile/bytecodec in Rocq — design

## 1. What is modelled

The crate is a library of *incremental* codecs: a decoder is a state machine driven by
`decode(buf, eos)` calls, an encoder by `encode(buf, eos)` calls.  The model is a shallow,
computable embedding in Gallina: for each Rust type that implements `Decode`/`Encode` there is a
Coq value of type `Decoder S I` / `Encoder S I`, a record of the trait's methods written as
state-passing functions.  Nothing in the model files is a proof.

* `theories/Base.v` – bytes, `res` (`Ok`, `Err kind`, `Panic`, `OutOfFuel`), u64/usize checked
  arithmetic, slices, `ByteCount` (src/byte_count.rs), `Eos` (src/eos.rs), `ErrorKind` (src/error.rs).
* `theories/Iface.v` – the `Decode`, `Encode`, `SizedEncode` traits, `bytecodec_try_decode!` /
  `bytecodec_try_encode!`, `decode_from_bytes`, `encode_into_bytes`, `encode_all`, `decode_exact`.
* `theories/Prim.v` – src/bytes.rs, src/null.rs, src/padding.rs, src/slice.rs, src/monolithic.rs.
* `theories/Fixnum.v` – src/fixnum.rs.  `theories/Utf8.v` – the UTF-8 part of src/bytes.rs.
* `theories/Comb.v` – src/combinator.rs.  `theories/Tuple.v` – src/tuple.rs.
* `theories/Serde.v` – src/json_codec.rs, src/bincode_codec.rs (serde's parser and serialiser are
  parameters), the implementations for `&mut` and `Box`.  `theories/Sized.v` – `exact_requiring_bytes`
  of composed encoders.
* `theories/Io.v` – src/io.rs buffers and src/io_async.rs.

Conventions

* `u8` is `Coq.Init.Byte.byte`; slices and `Vec<u8>` are `list byte`; `usize` lengths are `nat`
  (the address space is 64 bit and a slice never exceeds `isize::MAX`, which appears as a hypothesis
  where it matters); `u64` is `N` with explicit overflow checks.
* Any overflow, underflow, out-of-range slice index, `unreachable!` or `expect` failure is the
  explicit outcome `Panic` (debug-build semantics; `Release.v` models the wrapping arithmetic of release builds, and C87 proves that
  where the model does not panic a release build computes the same values).  `Vec::reserve_exact` panics when the capacity would exceed `isize::MAX`.
* Loops run on fuel with the explicit outcome `OutOfFuel`; the theorems exclude it (termination).
  The loop of `collectn` is structural in the number of remaining items.
* An `Error` is its `ErrorKind`; the backtrace kept by `trackable` is not modelled.
* A method taking `&mut self` returns the new state *also when it returns an error*, so that
  histories that continue after errors are covered.  `encode` returns the new content of the buffer.
* Closures are total pure functions in `Comb.v` and total functions with a state of their own in
  `Closures.v` (C84, which also relates the two); in `Panics.v` they may panic (C90); iterators given to `repeat()` are finite lists in
  `Comb.v` and arbitrary state machines in `Iter.v` (C82, which also relates the two).  The
  collections of `collect()` and `collectn()` are lists in `Comb.v` and arbitrary types in `Extend.v` (C83).
* Strings are lists of Unicode scalar values; floats are their bit patterns; `monolithic_decode` is
  an arbitrary function from the stream to a result and a number of bytes read, `monolithic_encode`
  an arbitrary function to a list of `write` chunks plus an optional error.
* `Read`/`Write`/`AsyncRead`/`AsyncWrite` objects are oracles: a byte stream plus an arbitrary list
  of outcomes (short count, WouldBlock/Pending, error, EOF).

Not modelled: memory allocation failure, `Debug`/`Clone` derives, accessors (`inner_ref`, ...),
`trackable` locations,
the inside of the external crates (`serde_json`, `bincode`, `byteorder`, `tokio`; `byteorder`'s reads and writes
are modelled as shift/mask arithmetic), pinning, memory safety, real concurrency, time.

## 2. How the properties are proved

Specifications live in their own files and do not use the model's internals:

* `Spec.v` – the *drivers*: `feed` (a user loop that offers chunks of a stream to a decoder
  according to an arbitrary schedule until it is idle, then calls `finish_decoding`), `drain`
  (dually for encoders); and the behavioural contracts, all defined by "there is a set of states
  closed under every permitted call" (greatest fixed points), so that they quantify over all
  executions:
  * `parses m D Post s w i` – from state `s` the bytes `w` complete item `i`, in mode `m`
    (`SD` self-delimiting, `Exact` stream ends with the item, `ToEos` item ends with the stream);
    after `finish_decoding` the state satisfies `Post`.
  * `Contract.v` states what histories of calls may rely on in a component (`dec_safe`, `enc_safe`,
    `wo`, `fuel_free`); components written by the user enter the theorems through it.
  * `emits E Post s w` – from state `s` exactly the bytes `w` come out, whatever the buffers.
  * `decodes`/`encodes` lift these to all items of a format.
  Each comes with an *adequacy theorem* (`Drive.v`) that turns it into a statement about the drivers
  only, and a *closure theorem* for every combinator (`DecPrim`, `DecComb`, `DecComb2`, `EncPrim`,
  `EncComb`, `EncComb2`).
* `Universe.v` – a deep embedding `codec` of compositions with three interpretations (decoder,
  encoder, wire format as a plain relation between bytes and items); C01–C04 etc. are stated for
  every term; `UniverseProofs.v` is the induction.
* `Sound.v`/`SoundProofs.v` – soundness: any item handed out is justified by the consumed bytes.
* `Safe.v`/`SafeProofs.v`/`SafeEnc.v` – arbitrary histories of calls, with errors, setters and
  premature finishes, of every composition (`composed`, `composed_enc`): no panic, bounds.
* `Observe.v` – observation of call histories (bytes taken, items handed out) for C15–C17, C26, C32.
* `Trunc.v`, `EncCut.v` – streams that end inside an item, on the input and the output side.
* `Live.v`, `Steady.v`, `Honest.v` – termination of one call; a decoder never takes more than it was given.
* `Fuel.v` – adequacy: the fuel of the model has no influence on a call that ends
  (`fuel_irrelevant_decoder`, `fuel_irrelevant_encoder` in `Props_Returns.v`).
* `Returns.v` – which calls to an encoder return.
* `SliceSpec.v` – budgets and (de)multiplexing for `slice()`.
* `IoSpec.v` – FIFO relations for the buffers; `Link.v` – two peers connected by an unreliable
  (but lossless) transport, driven in any interleaving.
* `Props_*.v` – the property theorems, each followed by `Print Assumptions`, and by an `Example`
  that shows a concrete instance of its hypotheses.

| Property | Model | Method | Theorems in |
|---|---|---|---|
| C01, C02 | all decoders | `parses` closure theorems + adequacy w.r.t. `feed`; universe induction | Props_Codec |
| C03 | all encoders | `emits` closure theorems + adequacy w.r.t. `drain` | Props_Codec |
| C04 | universe | composition of the two | Props_Codec |
| C05–C07 | Fixnum | arithmetic on base-256 digits, two's complement mod 2^k | Props_Num |
| C08–C11 | all | invariants for arbitrary histories | Props_Safe |
| C12 | all decoders | soundness invariants | Props_Codec |
| C13–C15 | Length | `parses`/`emits` + invariants; deviations refuted with witness | Props_Comb, Props_Enc, Props_Cut |
| C16, C17 | MaxBytes | invariant over histories | Props_Comb |
| C18, C19 | Slice | invariant over histories with budgets; induction over interleavings | Props_Slice |
| C20 | Tuple | closure theorems, arities 2 to 8 | Props_Tuple |
| C21–C32 | combinators | closure theorems; refutations with witnesses where the code deviates | Props_Comb, Props_Seq, Props_Enc, Props_Adapt |
| C25 | Collect; every composition of decoders (`steady`) | measure on the remaining bytes; an invariant for each combinator that every call keeps, also one that fails | Props_Collect, Props_Steady |
| C33 | Padding | direct | Props_Adapt |
| C34 | Utf8 | validator equivalent to the existence of a decoding | Props_Num |
| C35, C36 | all | part of `parses` / `emits`; induction on terms for `exact_requiring_bytes` | Props_Codec, Props_Sized |
| C37–C41 | Iface | induction on the number of bytes left | Props_Codec |
| C42–C45 | Io | FIFO invariant relating buffer content to ghost input/output streams | Props_Io |
| C46 | Io + all | composition of C03, C43, C42, C01 as an invariant of a transition system | Props_Link |
| C47 | Monolithic | direct | Props_Adapt |
| C48, C49 | Base | algebra | Props_Base |
| C50, C56, C58 | various | invariants over one call, any state | Props_Guard |
| C51, C52 | all | invariants `ereports` / truncation | Props_Cut, Props_Trunc |
| C53, C54 | all | the `Post` of the contracts is again an initial state | Props_Codec |
| C55 | Length | invariants over histories, counterexample | Props_Safe |
| C57 | OwnedSlice | direct | Props_Adapt |
| C59 | all encoders | induction on the composition and the bytes left in the buffer | Props_Returns |
| C60, C61 | all encoders (terms), encode_into_bytes, encode_all | encodings specified by `writes` without the decoder (Writes.v); a contract per encoder preserved by every combinator (WritesProofs); induction on terms | Props_Writes |
| C62, C63 | json, bincode, `&mut`, `Box`, tagged decoders | instances of C47, C04 for any parser and serialiser; a reference is a place in a memory, related to the codec as in C80 | Props_Serde, Props_Twin |
| C64 | decode_exact, encode_all | induction on the failures; any decoder | Props_Retry |
| C65, C66 | all decoders, all encoders | relation between two calls on different buffers, preserved by every combinator (Local, LocalProofs) | Props_Local |
| C67 | BytesDecoder, CollectN, Length | induction over arbitrary histories | Props_Spent (also limits of C22, C26, C27, C29, C32, C40, C41) |
| C37, C40 | which calls the drivers make | two codecs that agree on these calls cannot be told apart | Props_Drivers |
| C68 | decode_exact over the term language; spec predicates in Exact.v | invariant `awake_step` for every combinator (ExactProofs.v), then induction on the data left in the reader | Props_Exact |
| C69 | decode_exact, buffer schedules and peekable over decoders with checks (`checked`, Props_Reject.v) | a checked decoder is pointwise a try_map around the unchecked one (`checked_same`), then C01/C38 | Props_Reject |
| C70 | start_encoding and call traces of the encoders in `firm` (Props_Reject.v) | induction on the composition: a refused start returns the state it got; counterexamples by computation | Props_Reject |
| C71 | decode calls of the decoders in `eager` (Eager.v), all states | induction on the composition; loops by induction on their rounds | Props_Eager |
| C72 | decode, requiring_bytes and decode_exact of the decoders in `frugal` (Eager.v) | an invariant per combinator (`provident`, EagerProofs.v), preserved by successful calls; `within` is additive over tuples | Props_Eager |
| C73 | encode, encode_all, encode_into_bytes of the encoders in `filling` (Eager.v) | an invariant per combinator (`fills`, FillProofs.v), preserved by all calls | Props_Eager |
| C74 | the encodings `reads` and the output of encode_into_bytes | from C01/C02 (decoders are functions of the stream) and C41 | Props_Verdict |
| C75 | feed, decode_exact, decode_from_bytes on arbitrary streams | soundness of decoders (C52) gives the bytes of the item, C01/C02 every other schedule; counterexample by computation | Props_Verdict |
| C76 | every method of every combinator, in every state | one lemma per combinator about the kinds it adds and passes on, induction over the codec; the drivers by induction on their loops; counterexamples to the documented lists by computation | Kinds (spec), KindsProofs, Props_Kinds |
| C77 | arbitrary implementations of the traits under every combinator | one preservation lemma per combinator about an arbitrary component that meets the contract; the varint codec of the examples is user code, proved to meet it | Contract and Custom (spec), CustomProofs, Props_Custom |
| C78 | decode_from_bytes, decode_exact, encode_all, encode_into_bytes with arbitrary codecs, readers and writers | inductive descriptions of the ways to fail; induction on the rounds of the loops and on the plan of the writer | Aftermath (spec), Props_Aftermath |
| C79 | setters and into_inner of collectn, omit, max_bytes, length, slice, peekable, maybe_eos, padding, BytesDecoder | the contract relation of each wrapper says what the inner codec still needs; induction on the schedule; for collectn an invariant independent of the configured number | Midway (spec), Props_Midway |
| C80 | all combinators and tuples, the functions that run a codec | logical relation: every combinator maps matching components to matching compositions; trace equivalence is the greatest match | Twin (spec), TwinProofs, Props_Twin |
| C81 | `encode_to_write_buf_async`, `flush`, `poll_flush` | invariant over histories with a log of wakers left and tasks woken: the stored waker is the last one left | Wake (spec), Props_Wake |
| C82 | `Repeat` over any iterator | induction over the rounds of a call, invariant on what the pulled items have still to output; simulation by the list model | Iter (model, spec), Props_Iter, Props_IterCut |
| C83 | `Collect` and `CollectN` into any collection | simulation by the list model; log of the items that the inner decoder hands out as an invariant | Extend (model, spec), Props_Extend |
| C84 | closures with effects in `Map`, `TryMap`, `MapErr`, `AndThen`, `MapFrom`, `TryMapFrom` | induction over histories: the trace is that of the inner codec with the closure threaded through | Closures (model, spec), Props_Closures |
| C85 | `RemainingBytesDecoder` and `MonolithicDecoder` in `max_bytes` and `length`, with a meter of the memory asked for | invariant over call histories; counterexamples by computation | Memory (spec), Props_Memory |
| C86 | pairs of compositions of the combinators of Comb.v and Tuple.v | bisimulations between the two compositions; counterexamples by computation | Twin (spec: `dalike`, `ealike`), Props_Laws, Props_Laws2 .. Props_Laws5 |
| C87 | the functions with `u64`/`usize` arithmetic again, with wrapping sums and differences (`w_…`), and compositions of them (`built`, `ebuilt`) | mutual induction over compositions: same result or the checked version panics; with C08/C09 for all histories; counterexamples by computation | Release (model), RelProofs, Props_Release |
| C88 | tuples, `and_then`, `collect`, `collectn` and `decode_exact` over a decoder delimited by the end of the stream (`parses _ ToEos`) | induction over schedules, by which call announces the end (`ending`) | Props_Tail |
| C89 | `Work.v` (`counted`, `countede`: a codec that counts the calls it gets), `Props_Work.v` | case analysis for the wrappers; for `collect`, `collectn` and `repeat` induction on the rounds of the loop: a round that comes back has advanced the offset. Calls of `is_idle` and `requiring_bytes` are not counted |
| C90 | `Panics.v` (closures, `Extend`, iterators and monolithic codecs that may panic), `Props_Panics.v` | the panic is a result and the state is what the code has reached; histories are compared with those of the codec whose closure does not panic, by induction on the history; loops by induction on their rounds |
| C91 | `Agree.v` (spec: histories, compositions with their setters), `Props_Agree.v` | each decoder has an invariant under which the two answers agree and which every call and every setter keeps; induction on the composition, then on the history; refutations by evaluation |
| C92 | `Duplex.v` (spec: the loop of a peer, `legal`, `willing`, `runs`), `DuplexProofs.v`, `Props_Duplex.v` | two peers, each one turn = execute_io (or the polled one), decode, finish, start, encode, with the result of every call; `runs` counts rounds in which each peer had a turn the connection did not refuse. DuplexProofs.v puts the invariant and the measure of C46 on each of the two directions; a willing turn decreases the measure of a direction or finds it drained. |
| C93 | `Rpc.v` (spec: client with a window, server with a state, `rruns`), `RpcProofs.v`, `Props_Rpc.v` | the invariant of C46 for each direction, over the items started so far, is extended by one item at each start; the sum of both measures and of the cost of what is not started decreases in every round, or both peers are stuck, which means that everything has been answered |
| C94 | `Receive.v` (spec: the loop), `Props_Receive.v` | the state of `maybe_eos` knows whether a byte of the current item was consumed: invariant "the items still expected, then the tail" over the truncation relation `cuts` of C52; every willing turn consumes a byte or sees the end |
| C95 | `EagerSum.v`, `Props_Over.v` (spec `midway`) | induction over `frugal` (C72): every composition has a potential that equals `requiring_bytes` where that says a number (and is arbitrarily large where it says infinite), is 0 when idle, and falls by at most the bytes taken; summed over the calls |
| C96 | `Relay.v` (`canonical`, `relay`), `Props_Relay.v` | induction over terms: for canonical formats `reads` is within `wire`; then the decoder soundness of C12 and the encoder contract of C60, by induction over the messages |
| C97 | `Proto.v` (`proto`, `speaks`, `follow`, `converse`, `tell`), `Props_Proto.v` | induction over the run and over the turns, from the decoder contract of C01 (completeness) and the soundness of C12 (every stream) |
| C98 | `Task.v` (`recv_poll`, `recv_task`), `Props_Task.v` | induction over the turns of one poll and over the polls, from the cut contract of C52 as in C94, with `poll_fill` reduced to `fill` by C45 |
| C99 | `Task.v` (`send_poll`, `send_task`), `Props_TaskSend.v` | induction over the turns of one poll and over the polls; encoder contract of C46, `poll_flush` reduced to `flush` by C45; the bytes left decrease in every turn |
| C100 | `Producer.v`, `Props_Producer.v` | invariant over the events: a sleeping producer has registered its waker and the buffer is full to its capacity; `flush` frees space only when all has gone out, and then wakes; concrete counterexample for `poll_flush` |
| C101 | `Service.v`, `Props_Service.v` | invariant of one turn that joins those of C98 (receiving) and C99 (sending), with a weight that every turn lowers; induction over the turns and over the polls |
| C102 | `Nap.v`, `Props_Nap.v` | invariant over all histories of calls: a stream state of would-block comes from the latest read or write, and the read buffer then has room; case analysis of one `execute_io` with the outcomes of C44 |
| C103 | `Nap.v`, `Props_NapTask.v` | the invariant of C102 for `poll_fill` and `poll_flush`, through the correspondence of C45 |
| C104 | `Blocking.v`, `Props_Blocking.v` | induction on the number of requests, as for C96, with the soundness of decoders (C39) on the one side and of encoders (C60) on the other |

(The file column names where most of the theorems are; `MANIFEST.json` has the exact names.)

Mutation tests: `seeded/LOG.jsonl` lists the wrong programs the theorems were tested against.
Known gap found that way (20-q29): no theorem describes the byte count of a `max_bytes` encoder after it has refused an item. The runs y05, z04, z11, w12 and N11 ended at the time limit before any theorem was reached and are inconclusive; N13-N16, the later edits for C103, were not run.

## 3. Trusted base

* Coq 8.16.1's kernel (and `coqc`/`coqchk`).
* The standard library only; no axioms: `Print Assumptions` says "Closed under the global context"
  for every property theorem.  (`coqchk -o` additionally lists seven constants of
  `Coq.ssr.ssrunder.Under_rel`, the parameters of a module type inside the standard library's
  ssreflect support; no theorem uses them.)
* The faithfulness of the hand translation described in section 1.  As a check of it,
  `Conformance.v` replays the crate's own unit tests and documentation examples in the model (by
  computation; these are tests of the translation, no property rests on them).
