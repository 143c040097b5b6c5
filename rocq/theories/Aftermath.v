(** * Specification for C78: what the functions that run a codec leave behind when they fail. *)
From Verif Require Export Iface Safe.
Set Implicit Arguments.

(** [took D s w s']: successful calls of [decode] led from [s] to [s'], and together they consumed [w]. *)
Inductive took {S I} (D : Decoder S I) : S -> list byte -> S -> Prop :=
| took_nil : forall s, took D s [] s
| took_step : forall fuel s buf e n s1 w s2,
    dec_decode D fuel s buf e = (s1, Ok n) -> took D s1 w s2 -> took D s (firstn n buf ++ w) s2.

(** [puts E fuel s chunks s']: successful calls of [encode], without an end of the stream, led a
    busy encoder from [s] to [s']; the n-th call put out the n-th chunk. *)
Inductive puts {S I} (E : Encoder S I) (fuel : nat) : S -> list (list byte) -> S -> Prop :=
| puts_nil : forall s, puts E fuel s [] s
| puts_step : forall s buf s1 buf1 n chunks s2,
    enc_idle E s = false -> enc_encode E fuel s buf (eos_new false) = (s1, buf1, Ok n) -> n <= length buf1 ->
    puts E fuel s1 chunks s2 -> puts E fuel s (firstn n buf1 :: chunks) s2.

(** What [write_all] (of the standard library) bears with, and what makes it fail with which kind. *)
Definition bearable (x : WrPlan) : Prop := (exists n, x = WrSome n) \/ x = WrErr IoInterrupted.
Definition fatal (x : WrPlan) (k : ErrorKind) : Prop :=
  (x = WrZero /\ k = Other) \/
  exists e, x = WrErr e /\ e <> IoInterrupted /\ k = match e with IoUnexpectedEof => UnexpectedEos | _ => Other end.

(** Why [decode_exact] fails: [decode] has taken [w] from the reader, and then ... *)
Inductive exact_failed {S I} (D : Decoder S I) (ifuel : nat) (s1 : S) (r1 : Reader)
    : S -> Reader -> ErrorKind -> Prop :=
(** ... the reader failed: the decoder can go on from where it was, nothing is lost; *)
| xf_read : forall e n r', rd_read r1 n = (r', inr e) ->
    exact_failed D ifuel s1 r1 s1 r' (match e with IoUnexpectedEof => UnexpectedEos | _ => Other end)
(** ... the decoder rejected the bytes of the next read; *)
| xf_decode : forall b e r' s' k, rd_data r1 = b ++ rd_data r' ->
    dec_decode D ifuel s1 b e = (s', Err k) -> exact_failed D ifuel s1 r1 s' r' k
(** ... the decoder left some of the bytes of the next read, though it had asked for them: they are lost; *)
| xf_left : forall b e r' s' n, rd_data r1 = b ++ rd_data r' ->
    dec_decode D ifuel s1 b e = (s', Ok n) -> n <> length b ->
    exact_failed D ifuel s1 r1 s' r' InconsistentState
(** ... the item was complete and [finish_decoding] refused it; *)
| xf_finish : forall s' k, dec_idle D s1 = true -> dec_finish D s1 = (s', Err k) ->
    exact_failed D ifuel s1 r1 s' r1 k
(** ... [requiring_bytes] failed (no decoder of the crate does that). *)
| xf_req : forall k, dec_req D s1 = Err k -> exact_failed D ifuel s1 r1 s1 r1 k.

(** How [encode_all] ends. [chunks] are the bytes put out by the encoder, [sent] those the writer got. *)
Inductive all_ended {S I} (E : Encoder S I) (fuel : nat) (s1 : S) (chunks : list (list byte)) (p : list WrPlan)
    : S -> list byte -> list WrPlan -> res unit -> Prop :=
| ae_done : forall used p', p = used ++ p' -> Forall bearable used ->
    enc_idle E s1 = true -> all_ended E fuel s1 chunks p s1 (concat chunks) p' (Ok tt)
(** [encode] failed: everything put out before was written *)
| ae_encode : forall used p' s' buf buf' k, p = used ++ p' -> Forall bearable used ->
    enc_idle E s1 = false -> enc_encode E fuel s1 buf (eos_new false) = (s', buf', Err k) ->
    all_ended E fuel s1 chunks p s' (concat chunks) p' (Err k)
(** a busy encoder put out nothing *)
| ae_stuck : forall used p' before, p = used ++ p' -> Forall bearable used -> chunks = before ++ [[]] ->
    enc_idle E s1 = false -> all_ended E fuel s1 chunks p s1 (concat chunks) p' (Err Other)
(** the writer failed: the rest of the last chunk is lost *)
| ae_write : forall used x p' before sent rest k, p = used ++ x :: p' -> Forall bearable used -> fatal x k ->
    chunks = before ++ [sent ++ rest] -> rest <> [] ->
    all_ended E fuel s1 chunks p s1 (concat before ++ sent) p' (Err k).
