(** * C59: calls to an encoder return; and the fuel of the model does not matter. *)
From Coq Require Import Lia ZifyBool ZifyNat ZifyN.
From Verif Require Import FuelProofs ReturnsProofs.
Set Implicit Arguments.

(** ** Adequacy of the model: the fuel is no parameter of the behaviour.

    The code has no fuel.  For every composition of the crate's decoders and encoders, in any
    state, a call that ends with fuel [f] has the same effect and the same result with any larger
    fuel. *)
Theorem fuel_irrelevant_decoder : forall S I (D : Decoder S I) M B q Item Conf Init,
  composed D M B q Item Conf Init ->
  forall f f' s buf e, f <= f' -> snd (dec_decode D f s buf e) <> OutOfFuel ->
    dec_decode D f' s buf e = dec_decode D f s buf e.
Proof. exact composed_fuel. Qed.
Print Assumptions fuel_irrelevant_decoder.

Theorem fuel_irrelevant_encoder : forall S I (E : Encoder S I) B l Item Conf Init,
  composed_enc E B l Item Conf Init ->
  (forall f f' s i, f <= f' -> snd (enc_start E f s i) <> OutOfFuel ->
     enc_start E f' s i = enc_start E f s i) /\
  (forall f f' s buf e, f <= f' -> snd (enc_encode E f s buf e) <> OutOfFuel ->
     enc_encode E f' s buf e = enc_encode E f s buf e).
Proof. exact composed_enc_fuel. Qed.
Print Assumptions fuel_irrelevant_encoder.

(** ** C59: [encode] returns on every buffer, in every state; [start_encoding] returns as well
    unless it runs a [pre_encode]. *)
Theorem C59_encode_returns : forall S I (E : Encoder S I) st, direct E st ->
  forall fuel s buf e, length buf + 1 < fuel ->
    snd (enc_encode E fuel s buf e) <> OutOfFuel.
Proof. intros S I E st H. apply (direct_eok H). Qed.
Print Assumptions C59_encode_returns.

Theorem C59_start_returns : forall S I (E : Encoder S I), direct E true ->
  forall fuel s i, snd (enc_start E fuel s i) <> OutOfFuel.
Proof. intros S I E H. now apply (direct_eok H). Qed.
Print Assumptions C59_start_returns.

(** In any state, also one left behind by an error: the buffer keeps its length and the number
    of bytes reported is at most that. *)
Theorem C59_stays_in_buffer : forall S I (E : Encoder S I) st, direct E st ->
  forall fuel s buf e s' buf' r, enc_encode E fuel s buf e = (s', buf', r) ->
    length buf' = length buf /\ forall n, r = Ok n -> n <= length buf.
Proof. intros S I E st H. exact (direct_tidy H). Qed.
Print Assumptions C59_stays_in_buffer.

(** An instance with every kind of loop: a repeated, length-limited pair of a number and a list of
    bytes, in a pre-encoded tuple. *)
Definition ex_direct :=
  tuple2_encoder (repeat_encoder (length_encoder (tuple2_encoder U16beEncoder (max_encoder (bytes_encoder vec_box)))))
                 (pre_encoder (optional_encoder U8Encoder)).
Example C59_example : direct ex_direct false /\
  (let s := fst (enc_start ex_direct 5 ((repeat_new (length_new (num_enc_new, max_new bytes_enc_new 9) 3)), pre_new num_enc_new)
                   ([(258%N, [x07]); (3%N, [])], Some 9%N)) in
   forall fuel buf e, length buf + 1 < fuel -> snd (enc_encode ex_direct fuel s buf e) <> OutOfFuel).
Proof.
  assert (D : direct ex_direct false).
  { unfold ex_direct. apply (@dr_pair _ _ _ _ _ _ true false); repeat constructor.
    apply (@dr_pair _ _ _ _ _ _ true true); repeat constructor. }
  split; auto. intros s. intros. eapply C59_encode_returns; eauto.
Qed.

(** The exception is real: [repeat(padding).pre_encode()] never returns from [start_encoding]; it
    collects an endless output. *)
Theorem C59_pre_encode_refuted : forall fuel,
  snd (enc_start (pre_encoder (repeat_encoder pad_encoder)) fuel (pre_new (repeat_new None)) [x2a]) = OutOfFuel.
Proof.
  intros fuel. set (E := repeat_encoder pad_encoder). cbn [enc_start pre_encoder].
  unfold pre_start, encode_into_bytes. cbn [pre_inner pre_new].
  change (enc_start E fuel (repeat_new None) [x2a]) with (mkRepeat (@None byte) (Some [x2a]), @Ok unit tt).
  change (enc_req E (mkRepeat None (Some [x2a]))) with (@Ok ByteCount Unknown). cbv iota beta. unfold encode_all.
  assert (G : forall n its buf w, length buf = io_buf_size -> wr_plan w = [] ->
    (its = [x2a] \/ its = []) ->
    snd (encode_all_loop E n fuel (mkRepeat (match its with [] => Some x2a | _ => None end) (Some its)) buf w) = OutOfFuel).
  { induction n as [|n IH]; intros its buf w LB PW HI; [reflexivity|].
    cbn [encode_all_loop]. unfold E at 1 2. cbn [enc_idle repeat_encoder repeat_idle rp_items enc_encode].
    destruct fuel as [|[|f]]; [reflexivity| |].
    - destruct buf; [discriminate LB|]. destruct HI; subst its; reflexivity.
    - assert (X : exists buf', length buf' = io_buf_size /\
        repeat_loop pad_encoder (S (S f)) (S (S f)) (mkRepeat (match its with [] => Some x2a | _ => None end) (Some its)) 0 buf (eos_new false)
        = (mkRepeat (Some x2a) (Some []), buf', Ok io_buf_size)).
      { exists (map (fun _ => x2a) buf). split; [now rewrite map_length|].
        assert (B : length (map (fun _ : byte => x2a) buf) = io_buf_size) by now rewrite map_length.
        assert (Y : forall b, length b = io_buf_size ->
           repeat_loop pad_encoder (S f) (S (S f)) (mkRepeat (Some x2a) (Some [])) io_buf_size b (eos_new false) =
           (mkRepeat (Some x2a) (Some []), b, Ok io_buf_size)).
        { intros b Lb. cbn [repeat_loop rp_items rp_inner repeat_pull enc_idle pad_encoder]. unfold slice_from.
          replace (io_buf_size <=? length b) with true by (rewrite Lb, Nat.leb_refl; auto).
          rewrite skipn_all2 by lia.
          change (enc_encode pad_encoder (S (S f)) (Some x2a) [] (eos_new false)) with (Some x2a, @nil byte, Ok 0). cbv iota beta. cbn [Nat.eqb].
          rewrite app_nil_r, firstn_all2 by lia. rewrite Nat.add_0_r. reflexivity. }
        assert (Z : repeat_pull pad_encoder (S (S f)) (match its with [] => Some x2a | _ => None end) its = PullGo (Some x2a) [])
          by (destruct HI; subst its; reflexivity).
        cbn [repeat_loop rp_items rp_inner]. rewrite Z. unfold slice_from. cbn [Nat.leb].
        cbn [skipn enc_encode pad_encode pad_encoder firstn app]. rewrite LB.
        replace (io_buf_size =? 0) with false by reflexivity. cbn [Nat.add is_reached eos_new]. apply Y. exact B. }
      destruct X as (buf' & LB' & ->). rewrite LB'. rewrite Nat.leb_refl.
      unfold wr_write_all. rewrite PW. cbn [length].
      destruct (firstn io_buf_size buf') as [|x l] eqn:FB.
      { apply (f_equal (@length _)) in FB. rewrite firstn_length, LB' in FB. discriminate FB. }
      cbn [wr_write_all_loop]. unfold wr_write. rewrite PW. cbn [length].
      cbn [enc_idle repeat_idle rp_items negb andb].
      replace (io_buf_size =? 0) with false by reflexivity.
      assert (SK : skipn (S (length l)) (x :: l) = []) by (rewrite skipn_all2; auto; cbn; lia).
      rewrite SK. cbn [wr_write_all_loop]. apply (IH []); auto. }
  pose proof (G fuel [x2a] (repeat x00 io_buf_size) (mkWriter [] []) (repeat_length _ _) eq_refl (or_introl eq_refl)) as R.
  cbn [app] in R. destruct (encode_all_loop E fuel fuel _ _ _) as [[s2 w2] r2]. cbn in R. subst r2. reflexivity.
Qed.
Print Assumptions C59_pre_encode_refuted.
