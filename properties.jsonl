{"id": "C01", "title": "Decoding does not depend on how the input is cut into buffers (self-delimiting decoders)", "statement": "Let a self-delimiting decoder (fixed-size numbers, fixed-size bytes, length(), collectn(), tuples, and_then, map... built from such) be fed the bytes of one item followed by anything. However the stream is cut into decode() calls (including empty buffers) and whether or not each call knows the exact distance to the end of stream, every call succeeds, the decoder becomes idle exactly when the last byte of the item is consumed, the sum of the returned sizes is exactly the item's length, the bytes after the item are left alone, and finish_decoding() returns that item.", "quantifier": "every composition of the covered combinators, every item, every trailing stream, every sequence of chunk sizes (zero included) and of Eos hints that are true of the stream", "why_tests_cant": "there are exponentially many ways to cut a stream and unboundedly many compositions; tests fix a few literals cut in one or two ways", "anchors": ["src/decode.rs:Decode", "src/macros.rs:bytecodec_try_decode", "src/combinator.rs", "src/bytes.rs", "src/tuple.rs", "src/fixnum.rs"]}
{"id": "C02", "title": "Decoding does not depend on chunking (decoders that run to the end of the stream)", "statement": "A decoder that takes everything up to the end of the stream (remaining bytes, UTF-8 remaining, collect(), padding, monolithic, and compositions ending in one) consumes every byte offered, does not become idle before the call that announces EOS, becomes idle in the call that does, and then finish_decoding() returns the same item for every way of cutting the stream.", "quantifier": "every composition ending in such a decoder, every stream content, every chunk schedule and every truthful Eos hint", "why_tests_cant": "as C01: the set of schedules is infinite and the interesting ones (EOS delivered with data / with an empty buffer) interact with every combinator", "anchors": ["src/bytes.rs:RemainingBytesDecoder", "src/combinator.rs:Collect", "src/padding.rs:PaddingDecoder", "src/monolithic.rs:MonolithicDecoder"]}
{"id": "C03", "title": "Encoding does not depend on output buffer sizes", "statement": "After a successful start_encoding(item), repeated encode() calls with buffers of any sizes write, in order, exactly the bytes of the item: each call writes min(buffer length, bytes left), never touches the part of the buffer beyond the returned size, and the encoder becomes idle exactly in the call that writes the last byte.", "quantifier": "every composition of the covered encoders, every encodable item, every sequence of buffer sizes (zero included)", "why_tests_cant": "infinitely many buffer-size schedules; a wrong boundary is only visible at particular split points", "anchors": ["src/encode.rs:Encode", "src/macros.rs:bytecodec_try_encode", "src/bytes.rs:BytesEncoder", "src/tuple.rs", "src/combinator.rs"]}
{"id": "C04", "title": "Encode/decode round trip for every codec composition", "statement": "For every codec built by nesting the crate's combinators over its primitive encoders/decoders, decoding the bytes produced by the matching encoder yields the original item, for every item the encoder accepts and for every pair of (output buffer sizes, input chunking).", "quantifier": "every codec term of unbounded depth, every item, every encoder schedule, every decoder schedule", "why_tests_cant": "unbounded nesting depth times unbounded items times unbounded schedules", "anchors": ["src/encode.rs", "src/decode.rs", "src/combinator.rs", "src/tuple.rs"]}
{"id": "C05", "title": "Unsigned big/little-endian codecs: byte order and round trip", "statement": "U8, U16be/le, U24be/le, U32be/le, U40be/le, U48be/le, U56be/le and U64be/le encoders output exactly the base-256 digits of the number, most significant first for be and least significant first for le, in exactly 1..8 bytes; the decoder of the same name returns the number whose digits it was given; both directions are mutually inverse.", "quantifier": "every number in range and every byte string of the width", "why_tests_cant": "2^64 values; boundary bytes at each position", "anchors": ["src/fixnum.rs"]}
{"id": "C06", "title": "Range check of the odd-width unsigned encoders", "statement": "start_encoding(n) of the 24, 40, 48 and 56 bit encoders returns InvalidInput if and only if n does not fit in the width, and in that case the encoder still is idle and has produced nothing.", "quantifier": "every u32/u64 value", "why_tests_cant": "the whole u64 range with an exact boundary", "anchors": ["src/fixnum.rs:U24beEncoder", "src/fixnum.rs:U40beEncoder", "src/fixnum.rs:U48beEncoder", "src/fixnum.rs:U56beEncoder"]}
{"id": "C07", "title": "Signed codecs are two's complement and round trip", "statement": "I8/I16/I32/I64 be/le encoders output the two's complement representation and the decoders recover the number, including the most negative one; F32/F64 codecs transport the bit pattern unchanged.", "quantifier": "every signed value / every bit pattern", "why_tests_cant": "2^64 values", "anchors": ["src/fixnum.rs:I8Decoder", "src/fixnum.rs:I64beDecoder", "src/fixnum.rs:F32beDecoder", "src/fixnum.rs:F64beDecoder"]}
{"id": "C08", "title": "No decoder panics or over-reports consumption, whatever the call history", "statement": "For every decoder composition, after any sequence of decode()/finish_decoding()/requiring_bytes() calls with any buffers and any Eos values whose announced distance is at most the address-space size, including calls after errors, no call panics and no decode() call reports more bytes than the buffer holds.", "quantifier": "every composition of the covered decoders, every finite history of calls with arbitrary arguments", "why_tests_cant": "histories are unbounded and panics hide in index arithmetic reached only after particular error sequences", "anchors": ["src/decode.rs", "src/combinator.rs", "src/bytes.rs", "src/tuple.rs"]}
{"id": "C09", "title": "No encoder panics or writes outside the reported size, whatever the call history", "statement": "For every encoder composition, after any sequence of start_encoding()/encode() calls with any items, buffers and Eos values, including calls after errors, no call panics, an encode() call never reports more than the buffer holds, and it leaves the buffer's length unchanged.", "quantifier": "every composition of the covered encoders, every finite history of calls", "why_tests_cant": "as C08", "anchors": ["src/encode.rs", "src/combinator.rs", "src/bytes.rs", "src/tuple.rs"]}
{"id": "C10", "title": "An idle decoder consumes nothing", "statement": "If is_idle() is true then decode() returns Ok(0) or an error and never consumes a byte, for every decoder except the monolithic one (for which the documented rule is violated).", "quantifier": "every covered decoder composition, every reachable state, every buffer and Eos", "why_tests_cant": "must hold in every reachable state", "anchors": ["src/decode.rs:Decode::decode", "src/monolithic.rs:MonolithicDecoder::decode"]}
{"id": "C11", "title": "finish_decoding before completion never yields an item", "statement": "If is_idle() is false then finish_decoding() returns an error, for every decoder composition and every reachable state.", "quantifier": "every covered decoder composition, every reachable state", "why_tests_cant": "premature finish can happen at every byte position of every composition", "anchors": ["src/decode.rs:Decode::finish_decoding", "src/tuple.rs", "src/combinator.rs:AndThen"]}
{"id": "C12", "title": "Decoded items are justified by exactly the consumed bytes", "statement": "Whenever a history of successful decode() calls is followed by a successful finish_decoding() = item, the concatenation of the bytes consumed since the previous item is an encoding of that item in the decoder's format (no byte invented, lost, duplicated or reordered), even if the Eos hints were wrong.", "quantifier": "every composition of the covered decoders, every history of successful calls, arbitrary buffers and Eos hints", "why_tests_cant": "adversarial byte streams and chunkings are unbounded", "anchors": ["src/decode.rs", "src/bytes.rs", "src/combinator.rs", "src/tuple.rs"]}
{"id": "C13", "title": "length(n) delimits exactly n bytes", "statement": "decoder.length(n) never consumes more than n bytes for an item, gives its inner decoder exactly those n bytes with a truthful distance to the end, yields an item only after exactly n bytes, and is then ready for the next n bytes. It makes any decoder, including one that runs to end of stream, self-delimiting.", "quantifier": "every inner decoder, every n, every chunking and trailing stream", "why_tests_cant": "n, the inner decoder and the chunking are unbounded", "anchors": ["src/combinator.rs:Length"]}
{"id": "C14", "title": "length(n) reports truncated streams", "statement": "If the stream ends before n bytes are available, decoding through length(n) ends in UnexpectedEos and never in an item. (As implemented the error can come one call later than documented: the check compares with the bytes missing after this buffer.)", "quantifier": "every inner decoder that consumes what it is given, every n, every truncation point, every chunking", "why_tests_cant": "every truncation point times every chunking", "anchors": ["src/combinator.rs:Length::decode"]}
{"id": "C15", "title": "length(n) encoder emits exactly n bytes or fails", "statement": "encoder.length(n) completes only if the item's encoding is exactly n bytes, in which case exactly these bytes are output; a shorter item gives InvalidInput, a longer one gives UnexpectedEos, and never more than n bytes are written. (Two exceptions: length(0) swallows any item, and over a monolithic encoder an item that is too long is cut silently.)", "quantifier": "every inner encoder, every n, every item, every buffer schedule", "why_tests_cant": "unbounded n and schedules; off-by-one at the boundary", "anchors": ["src/combinator.rs:Length::encode"]}
{"id": "C16", "title": "max_bytes(n) bounds what is consumed", "statement": "A decoder wrapped in max_bytes(n) consumes at most n bytes between two finish_decoding() calls whatever the history, behaves as the inner decoder when the stream given to it is at most n bytes, and otherwise returns InvalidInput.", "quantifier": "every inner decoder, every n, every history", "why_tests_cant": "resource-limit properties must hold against an adversarial stream", "anchors": ["src/combinator.rs:MaxBytes::decode"]}
{"id": "C17", "title": "max_bytes(n) encoder lets an item pass iff it fits", "statement": "An encoder wrapped in max_bytes(n) outputs an item unchanged if its encoding is at most n bytes, and returns InvalidInput in the first call that would take the total above n.", "quantifier": "every inner encoder, every n, every item, every buffer schedule", "why_tests_cant": "boundary at n for every schedule", "anchors": ["src/combinator.rs:MaxBytes::encode"]}
{"id": "C18", "title": "slice() consumes at most the budget and suspends without losing data", "statement": "A sliced decoder/encoder processes at most the number of bytes set by set_consumable_bytes, in total over all calls until the next set; suspended in the middle of an item it resumes where it stopped, so an item delivered in budgeted pieces equals the item delivered at once.", "quantifier": "every inner codec, every sequence of budgets and buffers", "why_tests_cant": "budgets and buffers interleave in unboundedly many ways", "anchors": ["src/combinator.rs:Slice"]}
{"id": "C19", "title": "slice() demultiplexing", "statement": "Two items whose encodings are interleaved on one stream in arbitrary segments are both recovered by two sliced decoders driven by the segment headers.", "quantifier": "every pair of self-delimiting decoders, every pair of items, every interleaving into segments and every chunking of each segment", "why_tests_cant": "all interleavings", "anchors": ["src/combinator.rs:Slice", "src/decode.rs:DecodeExt::slice"]}
{"id": "C20", "title": "Tuples encode and decode their components in order", "statement": "TupleEncoder outputs the concatenation of the components' encodings in order; TupleDecoder (arity 2 to 8) on such a concatenation returns the components in order, consuming exactly the concatenation.", "quantifier": "arity 2..8, every component codec, every item, every schedule", "why_tests_cant": "component boundaries can fall anywhere in a buffer", "anchors": ["src/tuple.rs"]}
{"id": "C21", "title": "and_then decodes a dependent suffix", "statement": "decoder.and_then(f) on the bytes of header h followed by bytes that the decoder f(h) accepts returns f(h)'s item and consumes exactly header plus body; afterwards it is ready for the next header.", "quantifier": "every header decoder, every f, every body decoder, every schedule", "why_tests_cant": "dependent formats: f ranges over all functions", "anchors": ["src/combinator.rs:AndThen"]}
{"id": "C22", "title": "collectn(n) decodes exactly n items in order", "statement": "decoder.collectn(n) on the concatenation of n non-empty item encodings returns exactly these items in order and consumes exactly these bytes.", "quantifier": "every inner decoder with non-empty encodings, every n, every list of items, every schedule and trailing stream", "why_tests_cant": "n and the item boundaries relative to buffers are unbounded", "anchors": ["src/combinator.rs:CollectN"]}
{"id": "C23", "title": "collect() decodes all items up to EOS in order", "statement": "decoder.collect() on the concatenation of item encodings followed by EOS returns exactly these items in order.", "quantifier": "every inner decoder with non-empty encodings, every list of items, every schedule", "why_tests_cant": "as C22", "anchors": ["src/combinator.rs:Collect"]}
{"id": "C24", "title": "collect() and a truncated last item: when it is reported and when it is dropped", "statement": "If the stream ends in the middle of an item and the end is announced by the call that brings its last bytes (at least one), decoding through collect() fails with UnexpectedEos. If the end is announced by a call with an empty buffer - which is what decode_exact does - and no earlier true hint has made it fail, the partial item is silently dropped: collect() is idle and hands out exactly the complete items. While the end is not announced it waits, having taken every byte offered. (That every truncation is reported, which a user would expect, is false of the code.)", "quantifier": "every item format that reports a truncated stream promptly, every number of complete items, every truncation point, every schedule of true hints", "why_tests_cant": "depends on how EOS is delivered relative to the data", "anchors": ["src/combinator.rs:Collect::decode", "src/io.rs:IoDecodeExt::decode_exact"]}
{"id": "C25", "title": "collect() terminates on every buffer", "statement": "A decode() call on collect() returns, for every inner decoder whose items take at least one byte. (With an inner decoder that completes items without consuming bytes the loop does not end.)", "quantifier": "every buffer, every productive inner decoder", "why_tests_cant": "non-termination cannot be observed by a finite test", "anchors": ["src/combinator.rs:Collect::decode"]}
{"id": "C26", "title": "repeat() encodes all items in order", "statement": "encoder.repeat() given an iterator of items outputs the concatenation of their encodings in order and then becomes idle; with every item non-empty each call fills its buffer. (An item with an empty encoding makes a call return early, which encode_all reports as an error.)", "quantifier": "every inner encoder, every finite list of items, every schedule", "why_tests_cant": "item boundaries versus buffer boundaries", "anchors": ["src/combinator.rs:Repeat"]}
{"id": "C27", "title": "optional()/omit() round trip", "statement": "optional() encodes Some(x) as x and None as nothing; omit(b) decodes None without consuming bytes if b, otherwise Some of the inner item.", "quantifier": "every inner codec, every option, every schedule", "why_tests_cant": "all inner codecs", "anchors": ["src/combinator.rs:Optional", "src/combinator.rs:Omittable"]}
{"id": "C28", "title": "peekable() exposes the item before it is taken", "statement": "When peekable() is idle, peek() is Some of exactly the item that the next finish_decoding() returns; before that peek() is None; peeking does not change anything.", "quantifier": "every inner decoder, every history", "why_tests_cant": "every reachable state", "anchors": ["src/combinator.rs:Peekable"]}
{"id": "C29", "title": "maybe_eos() tolerates EOS only between items", "statement": "maybe_eos() turns an EOS announced with an empty buffer before the first byte of an item into a no-op for the inner decoder, passes an EOS in the middle of an item through, and otherwise behaves as the inner decoder.", "quantifier": "every inner decoder, every history", "why_tests_cant": "position of EOS is arbitrary", "anchors": ["src/combinator.rs:MaybeEos"]}
{"id": "C30", "title": "map/try_map/map_err/map_from/try_map_from only transform items or errors", "statement": "These combinators return f of the inner item (or f's error), encode f of the item, or f of the inner error, and otherwise are indistinguishable from the inner codec: same bytes consumed/produced, same idleness, same requiring_bytes.", "quantifier": "every inner codec, every function, every call history", "why_tests_cant": "functions and histories are unbounded", "anchors": ["src/combinator.rs:Map", "src/combinator.rs:TryMap", "src/combinator.rs:MapErr", "src/combinator.rs:MapFrom", "src/combinator.rs:TryMapFrom"]}
{"id": "C31", "title": "pre_encode() outputs the same bytes and knows their number", "statement": "pre_encode() outputs exactly the inner encoder's bytes and its exact_requiring_bytes() is the exact number of bytes left at every moment, even if the inner encoder only reports Unknown.", "quantifier": "every inner encoder, every item, every schedule", "why_tests_cant": "all inner encoders and item sizes (internal 1024-byte buffer boundary)", "anchors": ["src/combinator.rs:PreEncode", "src/encode.rs:EncodeExt::encode_into_bytes"]}
{"id": "C32", "title": "last(item) emits pending bytes then the last item, once", "statement": "last(item) first finishes the item already in progress, then encodes the given item, then stays idle and produces nothing more. If the inner encoder refuses the item, that is reported once, nothing is written and the item is dropped. Its exact_requiring_bytes() is not the number of bytes left (the pending item is ignored).", "quantifier": "every inner encoder, every pending/last item, every schedule", "why_tests_cant": "all schedules", "anchors": ["src/combinator.rs:Last"]}
{"id": "C33", "title": "Padding", "statement": "PaddingEncoder fills every byte of every buffer with the padding byte until EOS is announced; PaddingDecoder with an expected byte accepts a stream iff all bytes equal it, with none it accepts every stream; in both cases the whole stream is consumed up to EOS.", "quantifier": "every byte, every stream, every schedule", "why_tests_cant": "any stream length and position of a wrong byte", "anchors": ["src/padding.rs"]}
{"id": "C34", "title": "UTF-8 decoding accepts exactly valid UTF-8", "statement": "Utf8Decoder returns the string whose UTF-8 encoding is the consumed byte string and fails with InvalidInput iff the bytes are not valid UTF-8; Utf8Encoder outputs the UTF-8 encoding; round trip holds even if a character is split between chunks.", "quantifier": "every byte string, every string of Unicode scalar values, every chunking", "why_tests_cant": "all byte strings; overlong forms, surrogates, truncated sequences", "anchors": ["src/bytes.rs:Utf8Decoder", "src/bytes.rs:Utf8Encoder"]}
{"id": "C35", "title": "requiring_bytes of decoders is a safe read size", "statement": "For a self-delimiting decoder that is not idle, requiring_bytes() = Finite(n) is a lower bound of the bytes left of the current item (and n = 0 only if none is left), it is never Infinite, and Unknown only if at least one byte is left. If the decoder is idle with an item it is Finite(0).", "quantifier": "every covered composition, every item, every position inside the item", "why_tests_cant": "every byte position of every composition", "anchors": ["src/decode.rs:Decode::requiring_bytes", "src/byte_count.rs:add_for_decoding"]}
{"id": "C36", "title": "requiring_bytes of encoders is exact", "statement": "If requiring_bytes() of an encoder is Finite(n) then exactly n more bytes will be output for the items it holds; exact_requiring_bytes() equals it in every state; an encoder with no item reports Finite(0) (false of the code for length(n), which reports n, and last, which forgets its second item).", "quantifier": "every covered composition, every item, every position", "why_tests_cant": "every byte position of every composition", "anchors": ["src/encode.rs:SizedEncode", "src/byte_count.rs:add_for_encoding"]}
{"id": "C37", "title": "decode_exact reads exactly one item from a reader", "statement": "decode_exact() with a reader whose stream starts with the encoding of an item returns the item and has taken from the reader exactly the bytes of the item, however short the individual reads are.", "quantifier": "every self-delimiting decoder composition, every item, every trailing stream, every sequence of short reads", "why_tests_cant": "short-read patterns are unbounded; over-reading corrupts the next item", "anchors": ["src/io.rs:IoDecodeExt::decode_exact"]}
{"id": "C38", "title": "decode_exact on a truncated or failing reader", "statement": "If the stream ends inside a fixed-size item decode_exact fails with UnexpectedEos; if a read fails, decode_exact fails with the mapped error kind; it never returns an item in these cases.", "quantifier": "every truncation point, every short-read pattern, every failing read position", "why_tests_cant": "every position", "anchors": ["src/io.rs:IoDecodeExt::decode_exact", "src/error.rs"]}
{"id": "C39", "title": "decode_from_bytes", "statement": "decode_from_bytes(buf) returns item iff buf is exactly one encoding: it succeeds on every complete encoding, returns InvalidInput if bytes are left over, and never ignores trailing bytes.", "quantifier": "every decoder composition, every buffer", "why_tests_cant": "all buffers", "anchors": ["src/decode.rs:DecodeExt::decode_from_bytes"]}
{"id": "C40", "title": "encode_all writes the whole encoding", "statement": "encode_all(writer) on a working writer writes exactly the encoding to the writer and ends idle; if the writer fails, what was written is a prefix of the encoding.", "quantifier": "every encoder composition, every item, encodings of any size (internal 1024-byte buffer), every writer failure point", "why_tests_cant": "sizes around multiples of 1024, arbitrary failure points", "anchors": ["src/io.rs:IoEncodeExt::encode_all"]}
{"id": "C41", "title": "encode_into_bytes returns exactly the encoding", "statement": "encode_into_bytes(item) returns exactly the item's encoding, for encoders with known and with unknown size, and leaves the encoder idle; for an encoder of unbounded output it returns InvalidInput.", "quantifier": "every encoder composition, every item", "why_tests_cant": "all items and sizes", "anchors": ["src/encode.rs:EncodeExt::encode_into_bytes"]}
{"id": "C42", "title": "ReadBuf is a FIFO between reader and decoder", "statement": "Whatever sequence of fill(), read() and decode_from_read_buf() is applied, the bytes taken out are, in order and without loss or duplication, the bytes read from the stream; head <= tail <= capacity always holds, so no call panics; is_empty() is true iff no byte is buffered.", "quantifier": "every operation history, every reader behaviour (short reads, WouldBlock, errors, EOF), every capacity", "why_tests_cant": "unbounded histories", "anchors": ["src/io.rs:ReadBuf"]}
{"id": "C43", "title": "WriteBuf is a FIFO between encoder and writer", "statement": "Whatever sequence of write(), encode_to_write_buf() and flush() is applied, the bytes given to the writer are, in order and without loss or duplication, the bytes put in, also across WouldBlock and errors; head <= tail <= capacity always holds.", "quantifier": "every operation history, every writer behaviour, every capacity", "why_tests_cant": "unbounded histories", "anchors": ["src/io.rs:WriteBuf"]}
{"id": "C44", "title": "Stream states report what the stream did", "statement": "After fill()/flush() the stream state is Normal if it stopped because the buffer was full/empty after a successful operation, WouldBlock if the stream would block, Eos if the stream returned 0, Error iff an error was returned; BufferedIo::is_eos/would_block are the documented combinations.", "quantifier": "every reader/writer behaviour", "why_tests_cant": "every sequence of outcomes", "anchors": ["src/io.rs:StreamState", "src/io.rs:ReadBuf::fill", "src/io.rs:WriteBuf::flush", "src/io.rs:BufferedIo"]}
{"id": "C45", "title": "Async polling is equivalent to blocking I/O on the buffers", "statement": "poll_fill/poll_flush leave the buffer and the stream state in the same condition as fill/flush for the same sequence of stream outcomes (Pending read as WouldBlock); execute_io_poll always drives both directions and returns Pending only if both do. flush() wakes the waker stored by encode_to_write_buf_async when there is room, poll_flush never does.", "quantifier": "every buffer state, every sequence of outcomes", "why_tests_cant": "every interleaving of outcomes", "anchors": ["src/io_async.rs", "src/io.rs:encode_to_write_buf_async"]}
{"id": "C46", "title": "End-to-end pipeline", "statement": "Items encoded through a WriteBuf, flushed over a stream with arbitrary short writes and WouldBlock, read into a ReadBuf with arbitrary short reads and WouldBlock, and decoded from it arrive complete and in order.", "quantifier": "every codec, every list of items, every buffer capacities > 0, every transport schedule", "why_tests_cant": "product of all schedules of four components", "anchors": ["src/io.rs"]}
{"id": "C47", "title": "Monolithic adapters", "statement": "The monolithic decoder passes the inner function exactly the whole stream; the monolithic encoder outputs exactly the bytes the inner function writes, for every buffer schedule; errors of the inner function are returned and leave no output pending.", "quantifier": "every inner function, every stream, every schedule", "why_tests_cant": "all functions and schedules", "anchors": ["src/monolithic.rs", "src/json_codec.rs", "src/bincode_codec.rs"]}
{"id": "C48", "title": "ByteCount arithmetic and order", "statement": "add_for_encoding is associative and commutative with unit Finite(0); add_for_decoding is commutative and associative with unit Finite(0) and result at least each known part; both follow the documented tables; the partial order is a partial order in which Unknown is comparable with nothing. Sums above u64::MAX overflow.", "quantifier": "all byte counts", "why_tests_cant": "three infinite families of operands", "anchors": ["src/byte_count.rs"]}
{"id": "C49", "title": "Eos arithmetic", "statement": "Eos::new(b).is_reached() = b; is_reached() iff the remaining bytes are Finite(0); back(n) adds n to a known distance and never announces EOS for n > 0; back composes additively.", "quantifier": "all Eos values and n", "why_tests_cant": "all values", "anchors": ["src/eos.rs"]}
{"id": "C50", "title": "A busy encoder rejects new items and is not disturbed", "statement": "start_encoding() on a non-idle primitive encoder returns EncoderFull and leaves the output still to come unchanged. (Tuples and optional differ: a tuple whose second component is busy has already started the first; optional accepts None, which changes nothing.)", "quantifier": "every state in the middle of an item, every new item", "why_tests_cant": "every position", "anchors": ["src/bytes.rs:BytesEncoder", "src/combinator.rs:Repeat", "src/padding.rs", "src/monolithic.rs", "src/tuple.rs"]}
{"id": "C51", "title": "A truncated output stream is reported", "statement": "If EOS is announced and the buffer cannot take the rest of the item, encode() returns UnexpectedEos, and the encoder is not idle afterwards.", "quantifier": "every covered encoder composition, every position, every buffer size", "why_tests_cant": "every position", "anchors": ["src/bytes.rs:BytesEncoder", "src/combinator.rs:Length"]}
{"id": "C52", "title": "A truncated input stream is reported", "statement": "If EOS is announced and the item is not complete, decode() of fixed-size, tuple, and_then, collectn (and mapped) decoders returns UnexpectedEos in that very call.", "quantifier": "every covered composition, every truncation point", "why_tests_cant": "every truncation point", "anchors": ["src/bytes.rs:BytesDecoder", "src/bytes.rs:CopyableBytesDecoder", "src/tuple.rs", "src/combinator.rs:CollectN"]}
{"id": "C53", "title": "Decoders are reusable", "statement": "After finish_decoding() a reusable decoder is ready for the next item: a stream of any number of consecutive items decoded with one decoder object yields exactly these items in order.", "quantifier": "every reusable composition, every list of items, every chunking across item boundaries", "why_tests_cant": "unbounded item sequences and boundaries", "anchors": ["src/decode.rs:Decode"]}
{"id": "C54", "title": "Encoders are reusable", "statement": "After becoming idle an encoder accepts the next item; a sequence of items encoded with one encoder outputs the concatenation of the encodings. (Length encoders are single-use: after completion start_encoding fails with EncoderFull unless the length is 0.)", "quantifier": "every reusable composition, every list of items, every buffer schedule", "why_tests_cant": "unbounded sequences", "anchors": ["src/encode.rs:Encode", "src/combinator.rs:Length"]}
{"id": "C55", "title": "Attacker-controlled lengths", "statement": "A length prefix read from the stream and used with length() never makes decoding panic. (False of the code for remaining-bytes decoders: reserve_exact is called with the announced length before any byte arrives, so a huge prefix is a capacity-overflow panic.)", "quantifier": "every u64 length prefix", "why_tests_cant": "2^64 values", "anchors": ["src/bytes.rs:RemainingBytesDecoder::decode", "src/combinator.rs:Length::decode"]}
{"id": "C56", "title": "A failed or premature finish_decoding does not disturb primitive decoders", "statement": "Calling finish_decoding() too early on the primitive decoders, on peekable, collect and collectn over anything, on map, try_map, utf8, omit and slice over decoders for which the same holds, and on length(n) while bytes are missing, returns IncompleteDecoding and leaves the decoder unchanged, so decoding can continue. (Tuple, and_then, max_bytes and maybe_eos lose state.)", "quantifier": "every reachable state", "why_tests_cant": "every position", "anchors": ["src/bytes.rs", "src/combinator.rs", "src/tuple.rs"]}
{"id": "C57", "title": "OwnedSlice is a window", "statement": "OwnedSlice(inner, start, end) exposes exactly bytes start..end; decoding into it changes only these bytes of the inner buffer; encoding from it outputs only these.", "quantifier": "every inner buffer, every valid window, every content", "why_tests_cant": "all windows", "anchors": ["src/slice.rs:OwnedSlice", "src/bytes.rs:BytesDecoder"]}
{"id": "C58", "title": "Configuration setters guard an item in progress", "statement": "Length::set_expected_bytes succeeds iff no byte of the current item has been processed and then the new length is in force; MaxBytes::set_max_bytes succeeds iff the new limit is not below what was consumed; a rejected call changes nothing.", "quantifier": "every state, every argument", "why_tests_cant": "every state", "anchors": ["src/combinator.rs:Length::set_expected_bytes", "src/combinator.rs:MaxBytes::set_max_bytes"]}
{"id": "C59", "title": "Calls to an encoder return, and stay inside the buffer", "statement": "encode() returns on every buffer in every state, also one left behind by an error, for every composition of encoders in which no pre_encode is driven by repeat or last; it keeps the length of the buffer and reports no more bytes than it holds.  start_encoding() returns as well unless it runs a pre_encode (which encodes the whole item and never returns for an endless one).", "quantifier": "every composition of encoders, every state, every buffer and Eos", "why_tests_cant": "termination and bounds of loops for every state, buffer and nesting", "anchors": ["src/combinator.rs:Repeat::encode", "src/combinator.rs:Last", "src/combinator.rs:PreEncode::start_encoding", "src/macros.rs:bytecodec_try_encode"]}
{"id": "C60", "title": "Success means the item was written", "statement": "An encoder that accepts an item with start_encoding() and later is idle, no call having failed, has written exactly the encoding of that item: nothing cut off, nothing extra, nothing left out, whatever the buffers and end-of-stream arguments were and whatever functions were given to map_from and try_map_from; likewise encode_into_bytes and encode_all, and items one after the other.  (False of the code for length(n) over a MonolithicEncoder, for length(n) over repeat() when an item has no bytes, and for length(0).)", "quantifier": "every composition of encoders, every item, every sequence of buffers and Eos values", "why_tests_cant": "every item, also those no decoder would accept; every nesting; every buffer schedule", "anchors": ["src/encode.rs:Encode", "src/encode.rs:EncodeExt::encode_into_bytes", "src/io.rs:IoEncodeExt::encode_all", "src/combinator.rs:Length", "src/combinator.rs:Repeat", "src/monolithic.rs:MonolithicEncoder"]}
{"id": "C61", "title": "Every item with an encoding is encoded", "statement": "An item that has an encoding by the composed format, within the sizes of real buffers, is accepted and written to any sequence of buffers, idle exactly when all of it is written - also when mapping functions have no inverse and the announced size is not the size of the body.", "quantifier": "every composition of encoders, every item, every sequence of buffers", "why_tests_cant": "every item, every nesting, every schedule", "anchors": ["src/encode.rs:Encode", "src/combinator.rs", "src/tuple.rs:TupleEncoder"]}
{"id": "C62", "title": "JSON and bincode codecs hand the whole stream to serde", "statement": "JsonDecoder and BincodeDecoder give the bytes of all pieces up to the end of the stream to the parser, once, and return its item; every rejection is InvalidInput; before the end there is no item. A value whose serialisation parses back to it round-trips through encoder and decoder for any buffers and pieces, also behind a length prefix (pre_encode + length). A value that cannot be serialised is InvalidInput, and the encoder takes the next item. decode_from_bytes accepts exactly what the parser accepts and reads completely. (Not so in general: bytes after the value are noticed only if they are in the last piece; after an error the decoder is not reusable.)", "quantifier": "every parser and serialiser, every item, every sequence of pieces and buffers", "why_tests_cant": "every serde type and every split of the stream", "anchors": ["src/json_codec.rs:JsonDecoder", "src/json_codec.rs:JsonEncoder", "src/bincode_codec.rs:BincodeDecoder", "src/bincode_codec.rs:BincodeEncoder", "src/monolithic.rs"]}
{"id": "C63", "title": "References and boxes are transparent", "statement": "A decoder or encoder used through &mut or Box answers every call as the codec itself does. After any sequence of calls the borrowed variable holds the codec in the state that direct use would have left, and nothing else in memory has changed; this stays true when the reference is part of a composition, so that work can go on with the variable when the composition is dropped. The same for start_decoding and try_start_decoding of tagged decoders and for exact_requiring_bytes.", "quantifier": "every codec, every state, every sequence of calls, every variable", "why_tests_cant": "every codec and history", "anchors": ["src/decode.rs:impl Decode for &mut D", "src/decode.rs:impl Decode for Box<D>", "src/encode.rs:impl Encode for &mut E", "src/encode.rs:impl Encode for Box<E>"]}
{"id": "C64", "title": "decode_exact can be resumed after a failed read without losing a byte", "statement": "When decode_exact returns an I/O error (WouldBlock, a broken connection that recovers, an interrupted call), calling it again with the same decoder and reader continues: the item finally returned is the one the bytes read before and after the failure encode, and exactly its bytes were taken from the reader. So a sequence of items is read completely and in order by calling again after each failure. (encode_all gives no such guarantee: it loses the bytes of the failed write.)", "quantifier": "All decoders, all byte streams, all positions and numbers of failing reads, all sizes of successful reads.", "why_tests_cant": "The number of failure patterns is infinite, and losing a byte at a failure only shows when the failure hits between specific bytes of an item.", "anchors": ["src/io.rs:IoDecodeExt::decode_exact", "src/io.rs:IoEncodeExt::encode_all", "src/decode.rs:Decode::requiring_bytes"]}
{"id": "C65", "title": "A successful decode does not depend on the bytes it leaves in the buffer", "statement": "If a decode call succeeds and takes n bytes, then with any other bytes after the first n (and the same buffer length and end-of-stream argument) it would also have succeeded, taken n bytes and left the decoder in the same state. So whole decoding histories depend on the taken bytes only, and what follows a message in the buffer cannot change what it decodes to.", "quantifier": "Every composition of the decoders of the crate (custom MonolithicDecode objects: those that depend only on what they read), every state, buffer and end-of-stream argument.", "why_tests_cant": "A lookahead bug shows only for particular following bytes; there are infinitely many compositions and following bytes.", "anchors": ["src/decode.rs:Decode::decode", "src/combinator.rs", "src/tuple.rs", "src/bytes.rs", "src/fixnum.rs", "src/monolithic.rs"]}
{"id": "C66", "title": "Encoding does not depend on the content of the output buffer and leaves the rest of it alone", "statement": "An encode call behaves the same (same result, same bytes written, same next state) whatever the output buffer held before, and a successful call that reports n bytes leaves the bytes of the buffer after the first n as they were. Uninitialised or reused buffers are therefore safe and no stale data leaks into the output.", "quantifier": "Every composition of the encoders of the crate, every state, buffer size and content, and end-of-stream argument.", "why_tests_cant": "Unit tests use fresh zeroed buffers; the dependence could hide in any composition and any state.", "anchors": ["src/encode.rs:Encode::encode", "src/combinator.rs", "src/tuple.rs", "src/bytes.rs", "src/monolithic.rs", "src/padding.rs"]}
{"id": "C67", "title": "One-shot components refuse further use instead of repeating or corrupting data", "statement": "After a BytesDecoder has handed out its buffer, every further decode and finish_decoding call fails with DecoderTerminated until set_bytes gives it a new buffer. After collectn(n) has handed out its collection it consumes nothing more and hands out only empty collections until set_remaining_items. After the encoder of length(n), n > 0, has written its n bytes it is idle for good: every start_encoding fails with EncoderFull, every set_expected_bytes fails, and no encode call writes a byte.", "quantifier": "Every such component (any element decoder, any inner encoder composition) and every history of calls after the item.", "why_tests_cant": "Tests stop after the first item; the claim is about all later call sequences.", "anchors": ["src/bytes.rs:BytesDecoder", "src/combinator.rs:CollectN", "src/combinator.rs:Length"]}
{"id": "C68", "title": "decode_exact returns on every stream", "statement": "decode_exact returns (an item or an error) for every decoder whose repeated items ask for bytes until they are complete, from every state reached by successful calls, whatever the reader delivers: valid or invalid data, short reads, a stream cut anywhere, failing reads. It makes at most one round per byte of the stream and two more. Without the condition on repeated items it can loop forever without reading anything (three such decoders are given).", "quantifier": "Every composition of the decoders of the crate except maybe_eos(), every history of successful calls, every reader.", "why_tests_cant": "Non-termination for some stream cannot be excluded by running finitely many streams, and the loop depends on requiring_bytes of every reachable state.", "anchors": ["src/io.rs:IoDecodeExt::decode_exact", "src/decode.rs:Decode::requiring_bytes", "src/combinator.rs:Collect", "src/combinator.rs:CollectN", "src/combinator.rs:Length"]}
{"id": "C69", "title": "A rejected item costs that item only", "statement": "When a check in the decoder (try_map, the UTF-8 check of a string) rejects a message that was read completely, the error is reported for that message and the decoder is ready for the next one: a sequence of messages yields one result per message, in order, an item or the error of the check, exactly as if each had been decoded on its own. This holds for a check at the end of a message: around the whole decoder, inside map, map_err, omit, length, max_bytes, maybe_eos, after a length prefix or flag (and_then), or in the last component of a tuple; read with decode_exact, from buffers of any sizes, or under peekable. It fails for a check in an earlier component of a tuple and inside collectn: there the next result mixes two messages (both shown).", "quantifier": "Every such composition, every check function, every sequence of messages and pattern of rejections, every reader and buffer schedule.", "why_tests_cant": "Whether a decoder is still in sync after an error depends on the combinator, the state left behind and the messages that follow; the number of rejection patterns is infinite.", "anchors": ["src/combinator.rs:TryMap", "src/combinator.rs:AndThen::finish_decoding", "src/combinator.rs:CollectN", "src/bytes.rs:Utf8Decoder", "src/tuple.rs", "src/io.rs:IoDecodeExt::decode_exact"]}
{"id": "C70", "title": "A refused item leaves no trace in the encoder", "statement": "When start_encoding returns an error (number out of range, a try_map_from that fails, an encoder that is still busy) every later call returns what it would have returned had the item not been offered. For tuples this holds when only the first component can refuse and the tuple is idle. It fails when a later component refuses: the earlier ones keep half of the refused item and write it (shown), and for pre_encode over length, which accepts nothing any more after one item of the wrong length (shown).", "quantifier": "Every composition of the encoders listed, every state, every refused item, every later history of calls.", "why_tests_cant": "The effect of leftovers shows only in later calls; all later call sequences matter.", "anchors": ["src/encode.rs:Encode::start_encoding", "src/fixnum.rs", "src/combinator.rs:TryMapFrom", "src/combinator.rs:PreEncode", "src/combinator.rs:Length", "src/tuple.rs"]}
{"id": "C71", "title": "A decoder takes all the bytes it is given unless the item is complete", "statement": "A successful decode call consumes the whole buffer, or is_idle is true after it. (So a caller that gets fewer bytes consumed than offered and is not told to finish is only ever looking at a suspended slice.) Moreover a successful call that announces the end of the stream leaves a complete item behind, except under length and maybe_eos. This holds in every state. It fails for slice (which suspends), and for length around an item that is longer than the window (shown).", "quantifier": "Every composition of decoders without slice and with length only over items that end where they are told to; every state, reachable or not, every buffer, every end-of-stream argument.", "why_tests_cant": "The rule is about every call on every buffer; a decoder that leaves one byte behind in one state loops forever in a driver.", "anchors": ["src/decode.rs:Decode::decode", "src/combinator.rs:Length", "src/combinator.rs:Slice", "src/combinator.rs:Collect", "src/combinator.rs:CollectN", "src/tuple.rs"]}
{"id": "C72", "title": "requiring_bytes of a decoder is a lower bound, whatever the bytes are", "statement": "In every state reached by successful calls: before the end of the stream, no call completes an item with fewer bytes than requiring_bytes said before it; at the end of the stream, a call that leaves bytes of its buffer behind has taken at least as many (collect asks for the bytes of a next item and is complete if there is none); and requiring_bytes of a complete item is 0. Hence decode_exact, which reads what requiring_bytes says, never has bytes left over: it returns InconsistentState only if the decoder itself does. This needs no assumption that the bytes form a message. It fails for length around an item shorter than the window, for a suspended slice (the byte is lost too) and, in calls that bring the last bytes of the stream, for monolithic decoders that do not read to the end (all shown).", "quantifier": "Every composition of decoders with length only over items that run to the end of their window and without slice, every state reached by successful calls, every buffer, every reader.", "why_tests_cant": "The bound has to hold for malformed data and all histories; a bound that is one too large in one state blocks or loses data.", "anchors": ["src/decode.rs:Decode::requiring_bytes", "src/io.rs:IoDecodeExt::decode_exact", "src/byte_count.rs:add_for_decoding", "src/combinator.rs:Length", "src/monolithic.rs"]}
{"id": "C73", "title": "An encoder uses the whole buffer unless the item is complete", "statement": "After any history of calls, a successful encode call fills the whole buffer, or is_idle is true after it; with the last buffer of the stream a successful call completes the item (except for monolithic encoders, which report success with bytes left over). Hence encode_all into a growing buffer fails only if the encoder does, and encode_into_bytes (where no part is monolithic) returns InconsistentState only if the encoder does. It fails for slice (suspended), for last (its item is started one call late) and for repeat over items without bytes, where encode_all gives up in the middle (all shown).", "quantifier": "Every composition of encoders without slice and last and with repeat over items of at least one byte; every state reached by any calls, failed ones included; every buffer and end-of-stream argument.", "why_tests_cant": "The rule is about every call in every state; drivers rely on it for termination.", "anchors": ["src/encode.rs:Encode::encode", "src/io.rs:IoEncodeExt::encode_all", "src/encode.rs:EncodeExt::encode_into_bytes", "src/combinator.rs:Repeat", "src/combinator.rs:Last", "src/combinator.rs:Length", "src/monolithic.rs:MonolithicEncoder", "src/tuple.rs"]}
{"id": "C74", "title": "An encoding means one item", "statement": "No byte string is the encoding of two items of the same codec; for a self-delimiting codec no encoding is a proper prefix of the encoding of another item, so a stream of items can be split into items in one way only. What encode_into_bytes returns for two different items is therefore different, and for self-delimiting codecs neither result starts with the other.", "quantifier": "Every composition of encoders and decoders of the crate, every pair of items and byte strings.", "why_tests_cant": "Ambiguity is about all pairs of items; tests compare the few they list.", "anchors": ["src/decode.rs:Decode", "src/encode.rs:EncodeExt::encode_into_bytes", "src/combinator.rs", "src/tuple.rs", "src/fixnum.rs", "src/bytes.rs"]}
{"id": "C75", "title": "The verdict on an arbitrary stream does not depend on how it is cut", "statement": "If some way of cutting a stream into buffers makes the decoder yield an item, then every way does: the same item with the same bytes left over (self-delimiting decoders), or the same item from the whole stream (limited decoders and those that run to the end). If one way ends in an error, no way yields an item. What decode_exact accepts from a reader, decode_from_bytes accepts, with the same item. It fails for collect() when the end of the stream is announced by an empty buffer after an incomplete item: that is accepted, while the same stream in one buffer is rejected (shown).", "quantifier": "Every composition of decoders, every byte stream (well-formed or not), every pair of schedules.", "why_tests_cant": "The number of cuts is exponential in the length of the stream, and ill-formed streams are not enumerable by hand.", "anchors": ["src/decode.rs:Decode::decode", "src/io.rs:IoDecodeExt::decode_exact", "src/decode.rs:DecodeExt::decode_from_bytes", "src/combinator.rs:Collect"]}
{"id": "C76", "title": "Every error kind has a cause", "statement": "Which kinds of error each method can return is fixed by what the codec is made of. decode returns UnexpectedEos only if the end of the stream was announced or a length decoder is involved, InvalidInput only if something checks the input (UTF-8, padding, max_bytes), DecoderTerminated only if a one-shot bytes decoder is involved, and otherwise only kinds that a function of the user returned; never EncoderFull, InconsistentState or Other. finish_decoding of an idle decoder never returns UnexpectedEos. An encoder that is idle never answers EncoderFull unless it is a length encoder, and answers InvalidInput only if something checks its items. The functions that run a codec (decode_from_bytes, decode_exact, encode_all, encode_into_bytes) add only the errors of the reader or writer and their own InvalidInput, InconsistentState and Other. The lists in the documentation of the traits are shorter than that: four calls return a kind their method does not document.", "quantifier": "Every composition of the crate, every state of the decoder, every state of the encoder after any calls (failed ones included), every buffer, end-of-stream announcement, reader and writer.", "why_tests_cant": "A caller branches on the kind; a test sees the kinds of the inputs it tries, not that no others occur.", "anchors": ["src/error.rs:ErrorKind", "src/decode.rs:Decode::decode", "src/decode.rs:Decode::finish_decoding", "src/encode.rs:Encode::start_encoding", "src/encode.rs:Encode::encode", "src/combinator.rs", "src/io.rs"]}
{"id": "C77", "title": "Own codecs combine with those of the crate", "statement": "The crate is open: a user implements Decode and Encode for their own types and puts them under the combinators. If an own decoder reads a wire format correctly whatever the cuts, and an own encoder writes one, then every composition of them with the combinators reads, respectively writes, the format the composition stands for: header then body for and_then, concatenation for tuples, repeat, collect and collectn, the items that pass for map and try_map, those of the given size for length, of at most that size for max_bytes, and so on, for every way of cutting the stream, with decode_from_bytes, decode_exact and encode_into_bytes, and a decoder gets back what an encoder of the same format was given. If the own components never panic on any calls, neither do the compositions. For example variable-length integers as the length prefix of byte strings.", "quantifier": "Every implementation of the traits that meets the contract, every composition of them with combinators of the crate, every item, byte stream and schedule.", "why_tests_cant": "The components that users write are not known to the crate: a test can only try some of them.", "anchors": ["src/decode.rs:Decode", "src/encode.rs:Encode", "src/combinator.rs", "src/tuple.rs", "src/bytes.rs:Utf8Decoder", "src/io.rs:IoDecodeExt::decode_exact"]}
{"id": "C78", "title": "What a failed run leaves behind", "statement": "When decode_from_bytes, decode_exact, encode_all or encode_into_bytes fails, the codec is in the state in which the call that failed left it, and every byte is accounted for. decode_exact: if the reader failed, the decoder has consumed exactly the bytes taken from the reader, and can go on; otherwise the bytes of the last read were given to the call that failed. encode_all: the writer got all the bytes put out before the failure; if the writer failed, those and a prefix of the last buffer of at most 1 KiB, the rest of which is lost; no write was attempted after the one that failed. decode_from_bytes with bytes after the item: the item is not lost, finish_decoding returns it. Whatever the outcome, the state is one that calls of the traits lead to, so everything that holds for all histories holds from there on.", "quantifier": "Every implementation of the traits, every state, item, byte stream, reader and writer, every failure point.", "why_tests_cant": "Failures can occur at every byte, and the state afterwards only shows in what happens next.", "anchors": ["src/decode.rs:DecodeExt::decode_from_bytes", "src/encode.rs:EncodeExt::encode_into_bytes", "src/io.rs:IoDecodeExt::decode_exact", "src/io.rs:IoEncodeExt::encode_all"]}
{"id": "C79", "title": "Settings changed, and wrappers taken off, in mid-item", "statement": "Changing a setting between two calls, or taking the inner codec out of its wrapper, does not lose or repeat data. set_remaining_items(n): the items decoded so far are kept, the item that has begun is the first of exactly n more. do_omit(true) ends the item at once with None and do_omit(false) goes on where it was. set_max_bytes(n): the bytes of the item so far count; a limit below them is refused, one below the size of the item makes it fail, any other lets it pass. set_expected_byte applies to the bytes to come. set_bytes restarts with the new container. into_inner() of length, max_bytes, slice, peekable, maybe_eos and omit in mid-item gives a decoder (encoder) that needs (outputs) exactly the bytes of the item that are left and then has the item; remaining_bytes() and consumed_bytes() count exactly.", "quantifier": "Every inner codec meeting the contract, every item, every cut point inside the item, every schedule before and after, every value of the setting.", "why_tests_cant": "The point in the item at which a setting is changed and its value are unbounded.", "anchors": ["src/combinator.rs:CollectN::set_remaining_items", "src/combinator.rs:Omittable::do_omit", "src/combinator.rs:MaxBytes::set_max_bytes", "src/combinator.rs:Length::into_inner", "src/padding.rs:PaddingDecoder::set_expected_byte", "src/bytes.rs:BytesDecoder::set_bytes"]}
{"id": "C80", "title": "A composition sees only the behaviour of its components", "statement": "If two components cannot be told apart by any sequence of calls (the same results, the same bytes, the same buffer contents), then whatever the combinators build from one and from the other cannot be told apart either, for all settings of the wrappers; and decode_from_bytes, decode_exact, decode_from_read_buf, encode_into_bytes, encode_all and encode_to_write_buf return the same, read and write the same, and leave codecs that cannot be told apart. So a component can be rewritten without looking at its users.", "quantifier": "Every two components, every composition, every setting, every sequence of calls, every reader, writer and buffer.", "why_tests_cant": "It quantifies over all pairs of implementations, compositions and histories.", "anchors": ["src/combinator.rs", "src/tuple.rs", "src/bytes.rs:Utf8Decoder", "src/io.rs:IoDecodeExt", "src/io.rs:IoEncodeExt"]}
{"id": "C81", "title": "Wake-ups of tasks that wait for room in a write buffer", "statement": "A task that calls encode_to_write_buf_async leaves its waker with the buffer if the call succeeds. Whatever is done with the buffer afterwards, by this task or others: a flush that succeeds and leaves room wakes the task whose waker was left last, and any other flush wakes nobody; nobody is woken that did not leave its waker, and nobody once another task has left its own since. The documentation promises that the waker will be called when the buffer regains free space. That fails in three ways: a task that was followed by another is never woken, however often the buffer is emptied; bytes that went out of a full buffer give no room and no wake-up until all are out; poll_flush wakes nobody even when it empties the buffer (the next flush does, also if it has nothing to write).", "quantifier": "Every history of calls on a write buffer by any number of tasks, with any encoders, items and streams.", "why_tests_cant": "A lost wake-up shows only in particular interleavings of tasks, partial writes and flushes, of which there are unboundedly many.", "anchors": ["src/io.rs:IoEncodeExt::encode_to_write_buf_async", "src/io.rs:WriteBuf::flush", "src/io_async.rs:WriteBuf::poll_flush"]}
{"id": "C82", "title": "repeat takes its items lazily from any iterator", "statement": "repeat() works with every iterator, also endless ones and ones with side effects: while the iterator has items, every buffer is filled with the encodings of the items in the order of the iterator, and at any time at most one item has been taken from the iterator beyond those whose bytes are all written. Over an endless iterator every call returns with a full buffer and the encoder is never idle; a call that announces the end of the room fails with UnexpectedEos however much room there is, so length(n) does not cut an endless sequence to n bytes but always fails. When the iterator returns None everything has been written, the encoder is idle, and the iterator is not asked again. An item that is refused is dropped and the next call goes on with the one after it; the bytes that the failing call had already put into the buffer are lost, though their items count as written (shown). With items that have no bytes, encode() does not return if the iterator is endless (shown).", "quantifier": "Every inner encoder meeting the contract with items of at least one byte, every iterator (any state and next function), every sequence of buffers.", "why_tests_cant": "Iterators are code of the user, may never end, and how far they are read ahead depends on the buffers.", "anchors": ["src/combinator.rs:Repeat::encode", "src/combinator.rs:Repeat::start_encoding", "src/encode.rs:EncodeExt::repeat"]}
{"id": "C83", "title": "collect and collectn fill any collection", "statement": "collect() and collectn(n) work with every collection type (Default + Extend), also ones that drop, merge or reorder what they get: the result is the default collection extended with the decoded items one by one, in the order of the stream, each exactly once, and the next result begins with a fresh default. Whatever the inner decoder does, and whether calls of decode failed in between or not, the collection returned holds exactly the items that the inner decoder handed out since the last one; for collectn these are n, whatever happened. In all other respects the type of the collection cannot be observed.", "quantifier": "Every collection type, every inner decoder, every history of calls, failing ones included.", "why_tests_cant": "The collection is code of the user, and an item lost or doubled by a failing call shows only for particular cuts.", "anchors": ["src/combinator.rs:Collect::decode", "src/combinator.rs:CollectN::decode", "src/decode.rs:DecodeExt::collect", "src/decode.rs:DecodeExt::collectn"]}
{"id": "C84", "title": "Closures are called once per item, error or start", "statement": "Closures with side effects (counters, logs, shared tables) can be given to the combinators. map and try_map call theirs exactly once for each item that the inner decoder returns from finish_decoding, in that order, and never during decode, requiring_bytes or is_idle; what try_map refuses becomes the error of that finish_decoding. map_err calls its closure exactly once for each error of decode and finish_decoding (encode and start_encoding). map_from and try_map_from call theirs exactly once for each call of start_encoding, also if the inner encoder then refuses the item; what try_map_from refuses does not reach the inner encoder. and_then calls its closure exactly once for each header that the first decoder returns, however the stream is cut and whichever later calls fail. A closure without effects gives the combinators of the other properties.", "quantifier": "Every closure with any state, every inner codec, every history of calls.", "why_tests_cant": "How often a closure runs depends on how the stream is cut and which calls fail.", "anchors": ["src/combinator.rs:Map", "src/combinator.rs:TryMap", "src/combinator.rs:MapErr", "src/combinator.rs:AndThen", "src/combinator.rs:MapFrom", "src/combinator.rs:TryMapFrom"]}
{"id": "C85", "title": "max_bytes(n) and length(n) bound the memory taken on behalf of a sender", "statement": "A remaining-bytes decoder directly inside max_bytes(n) or length(n) never holds more than n bytes, and never asks the allocator for more than n, whatever the calls, the announced lengths and the errors; a monolithic decoder (JSON, bincode) inside max_bytes(n) never holds more than n bytes. Under max_bytes this needs items to be taken only when complete: a finish_decoding that comes too early fails and gives the sender a new budget (shown). max_bytes(n) around a decoder with a length prefix limits what is consumed but not what is asked for: four bytes make it reserve 4 GiB (shown); with max_bytes(n) inside length(m) a length m > n is refused before anything is reserved.", "quantifier": "Every limit, every history of calls with any buffers, hints and outcomes, every parser.", "why_tests_cant": "A peak of memory depends on the whole history of buffers and announcements; tests do not look at it at all.", "anchors": ["src/combinator.rs:MaxBytes::decode", "src/combinator.rs:Length::decode", "src/bytes.rs:RemainingBytesDecoder::decode", "src/monolithic.rs:MonolithicDecoder::decode"]}
{"id": "C86", "title": "Compositions can be rearranged", "statement": "The laws that a reader of composed codecs takes for granted hold for everything that can be observed (results, bytes, hints, errors, state after errors), so code can be refactored with them. map, try_map, map_err, map_from and try_map_from fuse and vanish when they are identities, and map (map_from) moves out of every other combinator: max_bytes, length, slice, maybe_eos, omit, peekable, collect, collectn, and_then, optional, repeat, pre_encode, last, tuples. Two max_bytes are the smaller one, two slices the smaller budget, maybe_eos, peekable and length(n) twice are once, max_bytes(m) inside length(n) with n <= m has no effect, omit(false) is map(Some). Nested tuples are flat tuples, except that requiring_bytes may overflow in one shape and not in the other (shown). and_then is associative as long as no call fails; after a failure the two groupings resume differently (shown). length(n) twice around an encoder is the same up to and including the first error, not after it (shown).", "quantifier": "Every inner codec, every closure, every limit, every history of calls with any buffers and hints, except where a restriction is stated.", "why_tests_cant": "Equality of two compositions is a statement about all histories, including those after errors.", "anchors": ["src/combinator.rs:Map", "src/combinator.rs:TryMap", "src/combinator.rs:MapErr", "src/combinator.rs:MapFrom", "src/combinator.rs:TryMapFrom", "src/combinator.rs:AndThen", "src/combinator.rs:MaxBytes", "src/combinator.rs:Length", "src/combinator.rs:Slice", "src/combinator.rs:MaybeEos", "src/combinator.rs:Peekable", "src/combinator.rs:Repeat", "src/tuple.rs:TupleDecoder", "src/tuple.rs:TupleEncoder"]}
{"id": "C87", "title": "Debug and release builds do the same", "statement": "Take any composition of the crate's decoders (or encoders) and compile it with and without overflow checks. For every history of calls during which the debug build does not panic, the release build returns the same results, the same items and the same buffers. So under the conditions of C08 and C09 the two builds never differ: a history of calls to the release build is one of the debug build, and no call panics in either. Where the debug build panics on an announced rest of the stream of nearly 2^64 bytes, the release build goes on with a number that wrapped around: length() refuses a stream that is long enough, max_bytes(2) lets five bytes and after that any number of bytes through, slice() tells its decoder that the stream has ended, and a tuple that is not idle claims to need no bytes.", "quantifier": "all compositions of decoders and encoders, all histories of calls with all buffers and Eos values", "why_tests_cant": "tests run in one of the two profiles; the difference needs announcements near 2^64, and sameness is a claim about every history", "anchors": ["src/combinator.rs: Length, MaxBytes, Slice", "src/tuple.rs: requiring_bytes, exact_requiring_bytes", "src/byte_count.rs: add_for_decoding, add_for_encoding", "src/eos.rs: back", "src/bytes.rs: RemainingBytesDecoder"]}
{"id": "C88", "title": "A decoder that runs to the end of the stream belongs in the last place", "statement": "Put a decoder whose item ends with the stream (remaining bytes, collect, padding, monolithic) before another one in a tuple or in and_then, or inside collect or collectn. While the end is not announced every byte is taken and nothing becomes idle. In the call that announces it the decoder after it in the tuple, or the one made by and_then, gets the empty stream: if it refuses that, the whole decoding fails with its error, whatever the bytes were and however they were cut; if it takes it, the tuple is complete with both items. collect() around it returns the one item if the call that announces the end brings bytes, and the empty list - the whole stream is lost without an error - if it brings none, which is what decode_exact does. collectn(n) around it succeeds only for n = 1 and only if that call brings bytes; otherwise UnexpectedEos.", "quantifier": "every decoder that decodes an item up to the end of the stream, every decoder after it, every stream, every schedule of chunks and hints, every reader with short reads", "why_tests_cant": "the outcome depends on which call announces the end, not on the bytes; tests that pass the whole buffer with Eos(true) do not see the loss", "anchors": ["src/tuple.rs: TupleDecoder::decode", "src/combinator.rs: AndThen, Collect, CollectN", "src/io.rs: decode_exact", "src/bytes.rs: RemainingBytesDecoder"]}
{"id": "C89", "title": "One call costs no more than its bytes: how often a combinator calls the codec inside it", "statement": "In whatever state, one decode call on map, try_map, map_err, omit, length, max_bytes, slice, maybe_eos, peekable, and_then or a tuple of any size makes at most one decode call on each decoder inside it, and likewise for encode on the encoder combinators and start_encoding. One decode call on collect or collectn over items of at least one byte makes at most one call more than the buffer has bytes, and if it succeeds, collect makes at most two more than the bytes it consumed, so over a whole stream the calls are linear in its bytes; collectn never makes more calls than items are missing. One encode call on repeat starts no more items than are left, and every inner encode call except the last has written at least one byte. Over items of no bytes this fails: collectn with a single byte in the buffer makes as many calls as items were announced.", "quantifier": "all inner codecs, states, buffers, end-of-stream values, numbers of announced items, and all sequences of successful calls", "why_tests_cant": "A test measures some inputs; that no input makes a call superlinear (or multiplies calls in nested compositions) is about all buffers, splits and states, including those after failed calls.", "anchors": ["src/combinator.rs: Collect, CollectN, Repeat, AndThen, Peekable, Length, MaxBytes, Slice, MaybeEos, Omittable, Map, TryMap, MapErr, Last", "src/tuple.rs: impl_decode, impl_encode", "src/macros.rs: bytecodec_try_decode, bytecodec_try_encode"]}
{"id": "C90", "title": "A closure that panics loses its item and nothing else", "statement": "If a closure, an Extend implementation, an iterator or a monolithic codec given to a combinator panics and the caller catches the panic, the codec is in a usable state. map and try_map: only the item the closure was called for is lost, every other call before and after returns what it would have returned. map_err: only that error is lost. map_from and try_map_from: the encoder has not seen the item. and_then: the decoder is between two items; if the head was in this call's buffer, the same bytes can be offered again. collect and collectn: every item the inner decoder gave has been passed to extend exactly once and in order, and collectn counts the calls of extend that returned. MonolithicDecoder keeps all bytes it was given and takes none; MonolithicEncoder drops the item and is idle. repeat goes on behind the element whose next() panicked. Not preserved: a call of collect or repeat that panics does not say how many bytes it has taken or written, so offering the buffer again to collect duplicates items, and a head of and_then received in an earlier call is gone.", "quantifier": "all inner codecs, closures, inputs on which they panic, histories of calls before and after the panic, buffers and states", "why_tests_cant": "Panics at every possible call of the closure, with every history before and after, cannot be enumerated by tests; unwinding leaves half-executed methods.", "anchors": ["src/combinator.rs: Map, TryMap, MapErr, MapFrom, TryMapFrom, AndThen, Collect, CollectN, Repeat", "src/monolithic.rs: MonolithicDecoder::decode, MonolithicEncoder::encode"]}
{"id": "C91", "title": "is_idle and requiring_bytes tell the same story", "statement": "The documentation gives requiring_bytes() == Finite(0) as the meaning of is_idle(), and most decoders of the crate implement both. They agree in every state that any history of calls (decode with any buffer and hint, finish_decoding, setters, in any order, also after errors) reaches, for every composition of the crate's decoders except length(n), as long as heads of and_then, items of collect and collectn and peeked items have at least one byte. If every item has at least one byte, a decoder asks for bytes when it is created, after every finish_decoding (successful or not), and after a call that failed before the item was complete, so a caller that reads requiring_bytes() is never told to stop early. An idle encoder requires no bytes, in every state. Where it fails (shown): length(n) over a decoder that needs fewer or more than n bytes; and_then, collect, collectn and peekable over decoders of no bytes; a started encoder of an item of no bytes.", "quantifier": "all compositions, initial configurations, histories of calls, buffers and end-of-stream values", "why_tests_cant": "Each of the two methods is tested in a few states at best; agreement is about every reachable state, including those after errors and premature finish_decoding calls.", "anchors": ["src/decode.rs: Decode::is_idle, Decode::requiring_bytes", "src/encode.rs: Encode::is_idle, ExactBytesEncode", "src/combinator.rs", "src/tuple.rs", "src/bytes.rs", "src/padding.rs", "src/monolithic.rs", "src/fixnum.rs"]}
{"id": "C92", "title": "Two peers that keep calling execute_io exchange everything", "statement": "Two peers are connected by a bidirectional stream. Each has a BufferedIo with buffers of any size of at least one byte, messages to send and messages to expect, of any length compared with the buffers, and loops: execute_io or execute_io_poll, decode_from_read_buf, finish_decoding when idle, start_encoding of the next message when idle, encode_to_write_buf. However the turns of the two are interleaved, however short reads and writes are, wherever they would block or fail and are tried again: what a peer has received is at every moment a prefix of what the other one was given to send, no turn returns an error other than one of the connection, and there is no deadlock: a turn that makes progress is always possible, and once each peer has had more than 4 * (bytes of the messages) + 2 * (number of messages) turns in which the connection did not refuse it, everything sent to it has arrived. What this needs: a connection that can be read from. If read fails, execute_io returns before it flushes and nothing is written, while execute_io_poll writes all the same.", "quantifier": "all pairs of codecs and messages, all buffer sizes from one byte, all interleavings of turns, all plans of short, blocking and failing reads and writes", "why_tests_cant": "Deadlock freedom with full buffers on both sides is a statement about all interleavings and all stalls; a test sees one of them.", "anchors": ["src/io.rs: BufferedIo::execute_io, ReadBuf::fill, WriteBuf::flush, IoDecodeExt::decode_from_read_buf, IoEncodeExt::encode_to_write_buf", "src/io_async.rs: BufferedIo::execute_io_poll"]}
{"id": "C93", "title": "Requests over execute_io are all answered, in order and within the window", "statement": "A client and a server are connected by a bidirectional stream and each loops over execute_io (or execute_io_poll), decode_from_read_buf, finish_decoding, start_encoding and encode_to_write_buf, with BufferedIo buffers of any size of at least one byte. The client starts a request only while fewer than w >= 1 requests are unanswered; the server computes each reply from the request and a state of its own and sends the replies in order. For every interleaving of turns and every sequence of short, blocking and failing reads and writes: the server receives the requests in order, the client receives in order the replies the server gives to this list of requests; no reply arrives before its request did; never more than w requests are unanswered and never more than w replies wait in the server; no turn returns an error other than one of the connection; the two never deadlock waiting for each other, and after a number of rounds linear in the bytes of the messages the client has every reply.", "quantifier": "all pairs of codecs, all server functions with state, all lists of requests, all windows, all buffer sizes from one byte, all interleavings of turns, all plans of the connection", "why_tests_cant": "Each side waits for the other here, so a stall anywhere (a byte left in a buffer, a flush skipped) is a deadlock; tests see a few interleavings.", "anchors": ["src/io.rs: BufferedIo::execute_io, ReadBuf::fill, WriteBuf::flush, IoDecodeExt::decode_from_read_buf, IoEncodeExt::encode_to_write_buf", "src/io_async.rs: BufferedIo::execute_io_poll"]}
{"id": "C94", "title": "A receive loop with maybe_eos tells a closed connection from a cut one", "statement": "A program loops over ReadBuf::fill, decode_from_read_buf and finish_decoding with a decoder wrapped in maybe_eos(), and stops when a turn began with the stream at its end and the buffer empty. The stream is any number of whole messages followed by a proper prefix (possibly empty) of one more message. However the bytes arrive (short reads, reads that would block), for every buffer size from one byte: the items received are at every moment the first ones of those sent; the loop returns Ok only if the connection ended between two messages, and UnexpectedEos only if it was cut inside one, in both cases after every whole message was delivered; any other error is that of a failed read; and the loop has ended after one more turn with a successful first read than there are bytes. Without maybe_eos() (shown): the regular end is reported as UnexpectedEos too.", "quantifier": "all self-delimiting codecs that report truncation, all messages, all cut points, all buffer sizes from one byte, all plans of short, blocking and failing reads", "why_tests_cant": "The cut can be at any byte and the end can be noticed in any turn relative to the buffer's contents; a test covers one or two of the combinations.", "anchors": ["src/io.rs: ReadBuf::fill, IoDecodeExt::decode_from_read_buf", "src/combinator.rs: MaybeEos", "src/decode.rs: DecodeExt::maybe_eos"]}
{"id": "C95", "title": "Over several calls an item takes at least as many bytes as requiring_bytes said", "statement": "Whenever requiring_bytes of a decoder says b, in any state reached by successful calls, and any number of successful decode calls follow, none of which announces the end of the stream: the item is not complete before these calls have taken b bytes together, however they are cut; and if they took n bytes, requiring_bytes then still says at least b - n. If it said infinitely many, none of the calls completes the item and it keeps saying so. It fails for length around an item shorter than the window (shown).", "quantifier": "Every composition of decoders with length only over items that run to the end of their window and without slice, every reachable state, every sequence of buffers.", "why_tests_cant": "A bound that each single call respects can still be lost in between, when a call takes bytes and the number falls by more than these; tests see one cutting of one message.", "anchors": ["src/decode.rs:Decode::requiring_bytes", "src/combinator.rs", "src/tuple.rs", "src/byte_count.rs:add_for_decoding"]}
{"id": "C96", "title": "Decoding and encoding again passes on the bytes that were read", "statement": "A program reads messages with decode_exact and passes each on with start_encoding and encode_all, using one decoder and one encoder, and stops at the first error. Whatever bytes the reader contains (malformed ones too) and however the reader and the writer behave (short, failing), what has been written at any end is a prefix of what has been read, byte for byte; if no call failed, it is all of it. A stream of valid messages is passed on completely when the reader and writer never fail. In memory: encode_into_bytes of what decode_from_bytes returned gives the same bytes. This holds for formats with one encoding per item (mappings that undo each other, length prefixes that are computed from the body); a presence flag is not one of them: any nonzero flag is passed on as 1.", "quantifier": "Every composition with one encoding per item, every number of messages, every content of the reader, every plan of short and failing reads and writes.", "why_tests_cant": "The round-trip tests go from items to bytes and back; this is the other direction, over all byte strings that the decoder accepts, which tests do not enumerate.", "anchors": ["src/io.rs: IoDecodeExt::decode_exact, IoEncodeExt::encode_all", "src/decode.rs: DecodeExt::decode_from_bytes", "src/encode.rs: EncodeExt::encode_into_bytes", "src/fixnum.rs", "src/bytes.rs", "src/combinator.rs", "src/tuple.rs"]}
{"id": "C97", "title": "One connection can be handed from decoder to decoder", "statement": "A protocol chooses the codec of the next message by the items decoded so far (a header that selects the body, a version byte, a handshake). A program follows it with a new decoder per message: with decode_exact on a reader, or with one ReadBuf that it fills and hands from one decoder to the next (fill, decode_from_read_buf, finish_decoding when idle). For every protocol, every run of it followed by anything, every buffer size from one byte and every arrival of the bytes (short reads, reads that would block): the program ends with the result of the run, no byte is lost or read twice at a change of decoders, and what follows the run is still in the buffer and the connection; an error is that of a failed read; the number of turns is bounded by the bytes and messages. For every stream at all: a result is that of a run made of exactly the bytes taken, and the two programs agree. A sender that encodes the messages of a run with encode_all is understood.", "quantifier": "Every tree of codecs in which the next codec depends on the items, every run, every stream (also malformed), every buffer size, every plan of short, blocking and failing reads.", "why_tests_cant": "A decoder that reads ahead, or a buffer that is not emptied exactly up to the end of a message, shows only when another decoder takes over at that byte; tests use one decoder per stream.", "anchors": ["src/io.rs: IoDecodeExt::decode_exact, IoDecodeExt::decode_from_read_buf, ReadBuf::fill, IoEncodeExt::encode_all", "src/decode.rs: Decode::decode, Decode::finish_decoding", "src/combinator.rs", "src/tuple.rs", "src/fixnum.rs", "src/bytes.rs"]}
{"id": "C98", "title": "A task that receives messages hands out all that has arrived before it sleeps", "statement": "A task on an asynchronous connection loops: poll_fill, decode_from_read_buf, finish_decoding and keep the item if the decoder is idle; it returns Pending only when poll_fill was pending and no item came of it, and it is done when the buffer is empty at the end of the stream (the decoder is wrapped in maybe_eos). For every sequence of messages, whole or cut inside the last one, every buffer size from one byte, every pattern of pending answers and short reads, and after any number of polls: the items handed out are the first of those sent; whenever the task returns Pending, every message whose last byte has been read from the connection has been handed out, and the last answer of the connection was Pending, so that its waker is registered; it is pending at most as often as the connection is; polled once more than that, it has received everything and says whether the connection was closed between messages or cut inside one; any other error is that of a failed read. A task that returns Pending directly when poll_fill does can sleep forever on a complete message in its buffer.", "quantifier": "Every self-delimiting reusable composition, every list of messages, every cut, every buffer size, every interleaving of pending and ready answers, any number of polls.", "why_tests_cant": "Which bytes precede a Pending depends on the timing of the peer; a lost wake-up or a message stuck in the buffer shows only for some schedules.", "anchors": ["src/io_async.rs: ReadBuf::poll_fill", "src/io.rs: IoDecodeExt::decode_from_read_buf, ReadBuf", "src/combinator.rs: MaybeEos", "src/decode.rs: Decode::finish_decoding, Decode::is_idle"]}
{"id": "C99", "title": "A task that sends messages delivers every byte once and sleeps only when the connection will wake it", "statement": "A task on an asynchronous connection loops: start the next queued item when the encoder is idle, encode_to_write_buf, poll_flush; it fails when the write buffer reports the end of the stream, is done when the encoder is idle, the queue is empty and the buffer is empty, and otherwise returns Pending if poll_flush was pending. For every list of items (also ones with empty encodings), every write buffer size from one byte, every pattern of pending answers and partial writes and any number of polls: the bytes that the connection has accepted are a prefix of the concatenated encodings; when the task returns Pending there is more to send and the last answer of the connection was Pending, so that its waker is registered; it is pending at most as often as the connection is; when it says done, everything was accepted; an error is UnexpectedEos because the connection accepted 0 bytes, or that of a failed write. A connection that does not close or fail has everything after one poll more than it answers Pending.", "quantifier": "Every reusable composition, every list of items, every buffer size, every interleaving of pending answers and partial writes, any number of polls.", "why_tests_cant": "Where a partial write is cut, and between which calls the connection is pending, depends on the peer; a byte lost, doubled or left in the buffer shows only for some of these schedules.", "anchors": ["src/io_async.rs: WriteBuf::poll_flush", "src/io.rs: IoEncodeExt::encode_to_write_buf, WriteBuf", "src/encode.rs: Encode::start_encoding, Encode::is_idle"]}
{"id": "C100", "title": "A producer that sleeps because the write buffer is full is woken by the flush that empties it", "statement": "A producer task encodes its queued items with encode_to_write_buf_async and returns Pending when an item does not fit; the runtime polls it again only after its waker was called. Independently an I/O loop flushes the write buffer. For every order of polls and flush calls, every buffer size from one byte and every pattern of partial, refused and failed writes on a connection that stays open: the bytes out are a prefix of the concatenated encodings; flush reports only errors of the connection; while the producer sleeps the buffer is not empty, and a flush wakes it exactly if it empties the buffer; when the producer has returned Ready everything is out or in the buffer. If more flush calls than there are bytes find the connection willing, everything is sent and the producer has finished. With poll_flush in place of flush this is false: poll_flush wakes nobody, and the producer sleeps for ever although the buffer is empty.", "quantifier": "Every reusable composition, every list of items, every buffer size, every interleaving of polls and flushes, every pattern of partial and failed writes.", "why_tests_cant": "A lost wake-up needs a particular order of encode and flush calls and a particular amount of room left; a test that polls the task anyway does not notice it.", "anchors": ["src/io.rs: IoEncodeExt::encode_to_write_buf_async, WriteBuf::flush", "src/io_async.rs: WriteBuf::poll_flush"]}
{"id": "C101", "title": "A service that answers requests over one asynchronous connection, driven by execute_io_poll, loses nothing and sleeps only when it will be woken", "statement": "A service task repeats: execute_io_poll, decode_from_read_buf, queue the reply to a complete request, encode_to_write_buf; it returns Pending if what it may still read and what it has to write both wait. Any requests and replies of reusable compositions (the requests self-delimiting, optionally followed by the beginning of one more), any buffer sizes from one byte, any pattern of pending, partial and failed reads and writes. After any number of polls: the requests received are the first of those sent; the bytes out are a prefix of the encodings of the replies to them, in order; if the task is pending, every request that has arrived completely has been received, and since the poll before its last poll_read was pending or the peer has closed, and its last poll_write was pending or all replies are out; it never spins: a poll takes a bounded number of turns and each pending poll has seen a pending connection; success only after everything was answered, errors only if the connection was cut inside a request, closed for writing, or failed. If nothing fails, polling once more often than the connection says pending answers every request. A task that sleeps only when execute_io_poll returns Pending spins for as long as the peer is silent, because execute_io_poll is ready whenever there is nothing to write.", "quantifier": "Every pair of reusable compositions, every reply function, every list of requests and cut, every pair of buffer sizes, every pattern of pending, partial and failed reads and writes, every number of polls.", "why_tests_cant": "Reading and writing block independently of each other, at any byte of either stream; a service that loses a wake-up or spins in one combination passes any test that does not hit it.", "anchors": ["src/io_async.rs: BufferedIo::execute_io_poll, ReadBuf::poll_fill, WriteBuf::poll_flush", "src/io.rs: IoDecodeExt::decode_from_read_buf, IoEncodeExt::encode_to_write_buf, StreamState"]}
{"id": "C102", "title": "BufferedIo::would_block tells a program over non-blocking I/O when it may sleep", "statement": "A BufferedIo is used in any way: execute_io with any outcome, bytes taken from the read buffer by read and by decoders, bytes put into the write buffer by write and by encoders, in any order. Whenever would_block() is true, the latest read of the stream would have blocked, the read buffer has room for what the next read may give, and either nothing waits to be written or the latest write would have blocked; so it is never a left-over of an earlier call. After a successful execute_io, would_block() is true, or is_eos() is, or the read buffer is full and waits for the program. After a sleep, the next execute_io takes bytes if the stream has some, and writes some of what waits if the stream takes it. It is not enough to look at would_block(): it is true also while a complete message is in the read buffer (shown), so a program has to decode until its decoder is not idle before it sleeps.", "quantifier": "Every history of calls on a BufferedIo, every pair of buffer sizes (zero too), every reader and writer behaviour, every decoder and encoder that stays within its buffer.", "why_tests_cant": "A stale flag shows only after a particular sequence of partial, blocked and successful reads and writes with calls of the codecs in between.", "anchors": ["src/io.rs: BufferedIo::would_block, BufferedIo::is_eos, BufferedIo::execute_io, ReadBuf::fill, WriteBuf::flush, IoDecodeExt::decode_from_read_buf, IoEncodeExt::encode_to_write_buf"]}
{"id": "C103", "title": "A task on an asynchronous stream that sleeps when would_block() says so will be woken", "statement": "A BufferedIo over an asynchronous stream is used in any way: execute_io_poll with any outcome, bytes taken from the read buffer by read and by decoders, bytes put into the write buffer by write and by encoders, in any order. Whenever would_block() is true, the latest poll_read of the stream returned Pending (so the stream holds the waker of the task) and the read buffer has room for what it will bring, and the latest poll_write returned Pending unless there is nothing to write. If execute_io_poll returns Pending, would_block() is true; if it succeeds and would_block() is false, the stream is at its end or the read buffer is full, so the task has something to do. The result of execute_io_poll is not the condition to sleep on: with a silent peer and nothing to write it is Ready although would_block() is true (shown).", "quantifier": "Every history of calls on a BufferedIo, every pair of buffer sizes, every behaviour of a stream that does not answer ready-but-would-block, every decoder and encoder that stays within its buffer.", "why_tests_cant": "A stale state leads to a task that is never woken only after a particular sequence of pending and successful polls with calls of the codecs in between.", "anchors": ["src/io.rs: BufferedIo::would_block, BufferedIo::is_eos", "src/io_async.rs: BufferedIo::execute_io_poll, ReadBuf::poll_fill, WriteBuf::poll_flush"]}
{"id": "C104", "title": "A blocking server answers the requests it reads, in order, and nothing else", "statement": "A program repeats: read a request with decode_exact, compute an answer from it and from its own state, start_encoding the answer, encode_all it. Whatever bytes the reader delivers (malformed ones too) and however reader and writer behave, the requests read are those the input begins with, and the bytes written are the encodings of the answers to them, in order; at most the answer to the last request is missing or cut, and then the program has stopped with an error; what is written of a cut answer is a prefix of its encoding. If no call fails, exactly the number of requests asked for has been read, not a byte more, and all are answered; with well-formed requests in a self-delimiting format, answers that have an encoding, and a reader and a writer that do not fail, no call fails. After a failed write the program cannot be called again without losing an answer: encode_all drops what it had taken from the encoder (shown).", "quantifier": "Every pair of codecs of the grammar that can be used again, every stateful function from requests to answers, every input, every number of requests, every behaviour of the reader and the writer.", "why_tests_cant": "The composition depends on both codecs returning to their initial state after every item, on bytes not being read ahead, and on where reader and writer fail.", "anchors": ["src/io.rs: IoDecodeExt::decode_exact, IoEncodeExt::encode_all", "src/encode.rs: Encode::start_encoding"]}
