(** * What a component written by the user has to guarantee.

    The crate is open: anybody can implement [Decode] and [Encode], and combine the result with the
    components of the crate.  The theorems about histories of calls ([Safe.v]) cover
    compositions with such components, under the contracts below; the proofs use the same
    contracts for the crate's own components. *)
From Verif Require Export Spec.
Set Implicit Arguments.

(** The size of the machine's memory: no buffer, and not all bytes ever handled
    together, exceed 2^62 - 1. *)
Definition phys : N := 4611686018427387903.

(** The offered bytes and the announced remaining ones are at most [M]. *)
Definition eos_fits (M : N) (buf : list byte) (e : Eos) : Prop :=
  match e with Finite m => (len buf + m <= M)%N | _ => True end.

(** ** Decoders *)

(** The contract: [Inv t s] holds in every state reached while at most [t] bytes were consumed. *)
Record dsafe {S I} (D : Decoder S I) (M B : N) (q : bool) (Item : I -> Prop)
    (Conf : S -> S -> Prop) (Inv : N -> S -> Prop) : Prop := {
  ds_M : (M <= u64_max)%N;
  ds_mono : forall t t' s, (t <= t')%N -> Inv t s -> Inv t' s;
  ds_conf : forall t s s', Inv t s -> Conf s s' -> Inv t s';
  ds_decode : forall t s fuel buf e s' r,
    Inv t s -> (t + len buf <= phys)%N -> eos_fits M buf e ->
    dec_decode D fuel s buf e = (s', r) ->
    match r with
    | Ok n => n <= length buf /\ Inv (t + N.of_nat n)%N s' /\
              (q = true -> dec_idle D s = true -> n = 0)
    | Err _ => Inv (t + len buf)%N s'
    | Panic => False
    | OutOfFuel => True
    end;
  ds_finish : forall t s s' r, Inv t s -> dec_finish D s = (s', r) ->
    match r with
    | Ok i => Item i /\ Inv t s' /\ dec_idle D s = true
    | Err _ => Inv t s'
    | _ => False
    end;
  ds_req : forall t s, Inv t s ->
    match dec_req D s with
    | Ok (Finite n) => (n <= B)%N
    | Ok _ => True
    | _ => False
    end
}.
Arguments ds_M {S I D M B q Item Conf Inv} _.
Arguments ds_mono {S I D M B q Item Conf Inv} _ {t t' s} _ _.
Arguments ds_conf {S I D M B q Item Conf Inv} _ {t s s'} _ _.
Arguments ds_decode {S I D M B q Item Conf Inv} _ {t s fuel buf e s' r} _ _ _ _.
Arguments ds_finish {S I D M B q Item Conf Inv} _ {t s s' r} _ _.
Arguments ds_req {S I D M B q Item Conf Inv} _ {t s} _.

Definition dec_safe {S I} (D : Decoder S I) M B q Item Conf (Init : S -> Prop) : Prop :=
  exists Inv, dsafe D M B q Item Conf Inv /\ forall s, Init s -> Inv 0%N s.

(** ** Encoders *)

(** The same; [light]: nothing depends on the number of bytes written so far. *)
Record esafe {S I} (E : Encoder S I) (B : N) (l : bool) (Item : I -> Prop)
    (Conf : S -> S -> Prop) (Inv : N -> S -> Prop) : Prop := {
  es_mono : forall t t' s, (t <= t')%N -> Inv t s -> Inv t' s;
  es_light : l = true -> forall t s, Inv t s -> Inv 0%N s;
  es_conf : forall t s s', Inv t s -> Conf s s' -> Inv t s';
  es_encode : forall t s fuel buf e s' buf' r,
    Inv t s -> (t + len buf <= phys)%N -> eos_fits u64_max buf e ->
    enc_encode E fuel s buf e = (s', buf', r) ->
    length buf' = length buf /\
    match r with
    | Ok n => n <= length buf /\ skipn n buf' = skipn n buf /\ Inv (t + N.of_nat n)%N s'
    | Err _ => Inv (t + len buf)%N s'
    | Panic => False
    | OutOfFuel => True
    end;
  es_start : forall t s fuel i s' r, Inv t s -> Item i -> enc_start E fuel s i = (s', r) ->
    match r with
    | Ok _ | Err _ => Inv t s'
    | Panic => False
    | OutOfFuel => True
    end;
  es_req : forall t s, Inv t s ->
    match enc_req E s with
    | Ok (Finite n) => (n <= B)%N
    | Ok _ => True
    | _ => False
    end
}.
Arguments es_mono {S I E B l Item Conf Inv} _ {t t' s} _ _.
Arguments es_light {S I E B l Item Conf Inv} _ _ {t s} _.
Arguments es_conf {S I E B l Item Conf Inv} _ {t s s'} _ _.
Arguments es_encode {S I E B l Item Conf Inv} _ {t s fuel buf e s' buf' r} _ _ _ _.
Arguments es_start {S I E B l Item Conf Inv} _ {t s fuel i s' r} _ _ _.
Arguments es_req {S I E B l Item Conf Inv} _ {t s} _.

Definition enc_safe {S I} (E : Encoder S I) B l Item Conf (Init : S -> Prop) : Prop :=
  exists Inv, esafe E B l Item Conf Inv /\ forall s, Init s -> Inv 0%N s.

(** [encode] depends only on the size of the buffer, not on what is in it, and the bytes after those it
    reports keep their content. *)
Definition agree (n : nat) (buf buf2 b b2 : list byte) : Prop :=
  n <= length buf /\ firstn n b2 = firstn n b /\ skipn n b = skipn n buf /\ skipn n b2 = skipn n buf2.
Definition wo {S I} (E : Encoder S I) : Prop :=
  forall fuel s buf buf2 e, length buf2 = length buf ->
  exists s' b b2 r, enc_encode E fuel s buf e = (s', b, r) /\ enc_encode E fuel s buf2 e = (s', b2, r) /\
    length b = length buf /\ length b2 = length buf /\ forall n, r = Ok n -> agree n buf buf2 b b2.

(** ** The fuel of the model is only a device: a call that ends with some fuel ends in the same way
      with more.

    The code has no fuel.  Its loops are bounded in the model by a number of rounds, with the
    explicit result [OutOfFuel] when they are used up.  By [composed_fuel] the result of a call,
    if it is not [OutOfFuel], does not depend on that number. *)
Definition fuel_free {S I} (D : Decoder S I) : Prop :=
  forall f f' s buf e, f <= f' -> snd (dec_decode D f s buf e) <> OutOfFuel ->
    dec_decode D f' s buf e = dec_decode D f s buf e.

Definition fuel_free_start {S I} (E : Encoder S I) : Prop :=
  forall f f' s i, f <= f' -> snd (enc_start E f s i) <> OutOfFuel ->
    enc_start E f' s i = enc_start E f s i.
Definition fuel_free_enc {S I} (E : Encoder S I) : Prop :=
  fuel_free_start E /\
  forall f f' s buf e, f <= f' -> snd (enc_encode E f s buf e) <> OutOfFuel ->
    enc_encode E f' s buf e = enc_encode E f s buf e.
