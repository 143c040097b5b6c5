(** * Theorems about compositions with components of the user: C77.  The specification is in Custom.v. *)
From Coq Require Import Lia ZifyBool ZifyNat ZifyN.
From Verif Require Import CustomProofs Safe Local LocalProofs Props_Safe Props_Local.
Set Implicit Arguments.

(** ** Decoding *)

(** Whatever the cuts: exactly the bytes of the item are consumed, and the item comes out. *)
Theorem C77_decode : forall S I (D : Decoder S I) m fmt Pre Post s w i,
  speaks D m fmt Pre Post -> Pre s -> fmt w i -> delivers D m s w i Post.
Proof. intros. eapply parses_delivers, speaks_decodes; eauto. Qed.
Print Assumptions C77_decode.
Theorem C77_decode_from_bytes : forall S I (D : Decoder S I) m fmt Pre Post s w i fuel,
  speaks D m fmt Pre Post -> Pre s -> dec_idle D s = false -> fmt w i -> length w < fuel ->
  exists s', decode_from_bytes D fuel s w = (s', Ok i) /\ Post s'.
Proof.
  intros S I D m fmt Pre Post s w i fuel H p id f F.
  exact (decode_from_bytes_ok (speaks_decodes H s w i p f) id F).
Qed.
Print Assumptions C77_decode_from_bytes.
Theorem C77_decode_exact : forall S I (D : Decoder S I) m fmt Pre Post s w i extra r fuel,
  speaks D m fmt Pre Post -> Pre s -> dec_idle D s = false -> fmt w i ->
  rd_data r = w ++ extra -> (m <> SD -> extra = []) -> short_reads r -> length w + 2 <= fuel ->
  exists s' r', decode_exact D fuel fuel s r = (s', r', Ok i) /\ Post s' /\ rd_data r' = extra.
Proof.
  intros S I D m fmt Pre Post s w i extra r fuel H p id f RD EX SR F.
  eapply (decode_exact_ok (fuel := fuel) (ifuel := fuel) (extra := extra) r (speaks_decodes H s w i p f) id EX RD); try lia.
  eapply Forall_impl; [|exact SR]. intros q (n & ->). exact Logic.I.
Qed.
Print Assumptions C77_decode_exact.

(** ** Encoding *)
Theorem C77_encode : forall S I (E : Encoder S I) fmt Pre Post s w i,
  tells E fmt Pre Post -> Pre s -> fmt w i -> sends E s i w Post.
Proof. intros. eapply encodes_sends; eauto using tells_encodes. Qed.
Print Assumptions C77_encode.
Theorem C77_encode_into_bytes : forall S I (E : Encoder S I) fmt P s w i,
  tells E fmt P P -> rests E P -> P s -> fmt w i ->
  exists f0, forall fuel, f0 + length w < fuel ->
    exists s', encode_into_bytes E fuel s i = (s', Ok w) /\ P s'.
Proof.
  intros S I E fmt P s w i H R p f. destruct (tells_encodes H w i f) as (f0 & AC).
  exists (f0 + io_buf_size). intros fuel F. apply (encode_into_bytes_ok (fuel := fuel) R (AC _ p)). lia.
Qed.
Print Assumptions C77_encode_into_bytes.

(** ** Round trip: an encoder and a decoder that agree on the format *)
Theorem C77_round_trip : forall SE SD' I (E : Encoder SE I) (D : Decoder SD' I) m fmt PE Pre Post se sd w i,
  tells E fmt PE PE -> rests E PE -> speaks D m fmt Pre Post ->
  PE se -> Pre sd -> dec_idle D sd = false -> fmt w i ->
  exists f0, forall fuel, f0 + length w < fuel ->
    exists se' sd', encode_into_bytes E fuel se i = (se', Ok w) /\
      decode_from_bytes D fuel sd w = (sd', Ok i) /\ PE se' /\ Post sd'.
Proof.
  intros SE SD' I E D m fmt PE Pre Post se sd w i HE R HD pe pd id f.
  destruct (@C77_encode_into_bytes _ _ _ _ _ se w i HE R pe f) as (f0 & X). exists f0. intros fuel F.
  destruct (X fuel F) as (se' & Y & Z). exists se'.
  destruct (@C77_decode_from_bytes _ _ _ _ _ _ _ sd w i fuel HD pd id f) as (sd' & V & W); [lia|]. eauto 7.
Qed.
Print Assumptions C77_round_trip.

(** The codecs of the crate can be components, too. *)
Theorem C77_crate : forall A (c : codec A), wf c ->
  (exists Pre Post, speaks (decoder c) (delim c) (reads c) Pre Post /\ Pre (dec_fresh c) /\
    (dec_again c = true -> forall s, Post s -> Pre s)) /\
  (exists Pre Post, tells (encoder c) (wire c) Pre Post /\ Pre (enc_fresh c) /\
    (enc_again c = true -> rests (encoder c) Pre /\ forall s, Post s -> Pre s)).
Proof.
  intros A c W. split.
  - destruct (proj1 term_dec_ok A c W) as (P & Q & H & K & HA & _). exists P, Q. split; [now apply sp_own|auto].
  - destruct (proj1 term_enc_ok A c W) as (P & Q & H & K & HA). exists P, Q. split; [now apply te_own|auto].
Qed.
Print Assumptions C77_crate.

(** ** Example: variable-length integers

    User code, not in the crate: a decoder for byte strings that end with the first byte that satisfies
    [stop], and an encoder that outputs a byte string. *)
Record Until := mkUntil { un_bytes : list byte; un_done : bool }.
Fixpoint take_until (stop : byte -> bool) (buf : list byte) : list byte * bool :=
  match buf with
  | [] => ([], false)
  | b :: buf' => if stop b then ([b], true) else let '(p, f) := take_until stop buf' in (b :: p, f)
  end.
Definition until_decoder (stop : byte -> bool) : Decoder Until (list byte) :=
  {| dec_decode := fun _ s buf e =>
       if un_done s then (s, Ok 0)
       else let '(p, f) := take_until stop buf in
            (mkUntil (un_bytes s ++ p) f,
             if negb f && is_reached e then Err UnexpectedEos else Ok (length p));
     dec_finish := fun s =>
       if un_done s then (mkUntil [] false, Ok (un_bytes s)) else (s, Err IncompleteDecoding);
     dec_req := fun s => Ok (if un_done s then Finite 0 else Unknown);
     dec_idle := un_done |}.
Definition raw_encoder : Encoder (list byte) (list byte) :=
  {| enc_encode := fun _ s buf e =>
       let n := Nat.min (length buf) (length s) in
       (skipn n s, firstn n s ++ skipn n buf,
        if (n <? length s) && is_reached e then Err UnexpectedEos else Ok n);
     enc_start := fun _ s i => match s with [] => (i, Ok tt) | _ => (s, Err EncoderFull) end;
     enc_req := fun s => Ok (Finite (len s));
     enc_idle := fun s => match s with [] => true | _ => false end |}.

(** Their formats. *)
Definition stopped (stop : byte -> bool) (w : list byte) : Prop :=
  exists a z, w = a ++ [z] /\ Forall (fun b => stop b = false) a /\ stop z = true.
Definition until_fmt (stop : byte -> bool) : format (list byte) :=
  fun w i => w = i /\ stopped stop w /\ (len w <= isize_max)%N.
Definition raw_fmt : format (list byte) := fun w i => w = i /\ (len w <= isize_max)%N.

Lemma take_until_all : forall stop w extra, stopped stop w -> take_until stop (w ++ extra) = (w, true).
Proof.
  intros stop w extra (a & z & -> & F & Z). induction F as [|b a B F IH]; cbn.
  - now rewrite Z.
  - rewrite B, IH. reflexivity.
Qed.
Lemma take_until_some : forall stop buf w', stopped stop (buf ++ w') -> w' <> [] ->
  take_until stop buf = (buf, false) /\ stopped stop w'.
Proof.
  intros stop. induction buf as [|b buf IH]; intros w' (a & z & E & F & Z) NE.
  - split; auto. exists a, z. auto.
  - destruct a as [|x a]; cbn in E; injection E as <- E.
    + destruct buf; [|discriminate]. cbn in E. congruence.
    + inversion F; subst. destruct (IH w') as [X Y]; auto; [exists a, z; auto|].
      cbn. rewrite H1, X. auto.
Qed.
Lemma until_decodes : forall stop, decodes (until_decoder stop) SD (until_fmt stop)
  (fun s => s = mkUntil [] false) (fun s => s = mkUntil [] false).
Proof.
  intros stop s w i -> (<- & T & L).
  exists (fun s v i => (len v <= isize_max)%N /\
    ((un_done s = true /\ v = [] /\ un_bytes s = i) \/ (un_done s = false /\ un_bytes s ++ v = i /\ stopped stop v))).
  split; [|cbn; auto]. clear w T L. constructor.
  - tauto.
  - intros [b d] w i [L [(A & B & C)|(A & _)]]; cbn in *; [|congruence]. intros _. subst. eauto.
  - intros [b d] w i [L [(A & B & C)|(A & B & T)]]; cbn in *; [congruence|]. intros _. subst.
    destruct T as (a & z & -> & _). destruct a; discriminate.
  - intros [b d] i fuel buf w' extra e [L [(A & B & C)|(A & B & T)]]; cbn in *; [congruence|].
    intros _ NE _ TR _. subst d. destruct (take_until_some _ T NE) as [X Y]. rewrite X. cbn.
    assert (R : is_reached e = false).
    { destruct TR as [->|[[-> _]|[-> _]]]; auto. cbn. destruct w'; [congruence|]. reflexivity. }
    rewrite R. eexists. split; [reflexivity|]. cbn. split; auto. split.
    + unfold len in *. rewrite app_length in L. lia.
    + right. split; auto. split; auto. now rewrite <- app_assoc.
  - intros [b d] i fuel w extra rest e [L [(A & B & C)|(A & B & T)]]; cbn in *; [congruence|].
    intros _ _ TR _. subst d. rewrite (take_until_all _ T). cbn. eexists. split; [reflexivity|]. cbn.
    split; auto. split; [cbv; discriminate|]. left. auto.
Qed.
Lemma raw_encodes : encodes raw_encoder raw_fmt (fun s => s = []) (fun s => s = []).
Proof.
  intros w i [<- L]. exists 0. intros s -> fuel F; clear F. exists w. split; [reflexivity|].
  exists (fun s v => s = v /\ (len v <= isize_max)%N). split; auto. clear w L fuel. constructor.
  - tauto.
  - intros s w [-> L]. cbn. destruct w; auto. discriminate.
  - intros s w [-> L]. cbn. auto.
  - intros s w w' fuel buf e [-> L] id LB NE R _. cbn. rewrite app_length, <- LB.
    replace (Nat.min (length w) (length w + length w')) with (length w) by lia.
    rewrite R, andb_false_r. exists w'. rewrite firstn_app, firstn_all, Nat.sub_diag, skipn_app, skipn_all, Nat.sub_diag.
    cbn. rewrite app_nil_r. rewrite LB, skipn_all, app_nil_r. split; auto. split.
    + destruct w'; congruence.
    + split; auto. unfold len in *. rewrite app_length in L. lia.
  - intros s w fuel buf e [-> L] id LE _. cbn [enc_encode raw_encoder]. replace (Nat.min (length buf) (length w)) with (length w) by lia.
    rewrite firstn_all, skipn_all, Nat.ltb_irrefl. cbn [andb]. eexists. split; [reflexivity|]. split; auto. split; auto.
    cbv; discriminate.
Qed.
Lemma raw_rests : rests raw_encoder (fun s => s = []).
Proof.
  intros s ->. cbn. split; auto. split; auto. intros fuel buf e _. exists []. rewrite Nat.min_0_r. cbn. auto.
Qed.

(** An integer: seven bits per byte, the lowest first, the top bit says that more follow. *)
Definition last_group (b : byte) : bool := (Byte.to_N b <? 128)%N.
Fixpoint varint_value (w : list byte) : N :=
  match w with [] => 0 | b :: w' => Byte.to_N b mod 128 + 128 * varint_value w' end%N.
Definition to_byte (n : N) : byte := match Byte.of_N n with Some b => b | None => x00 end.
Fixpoint varint_bytes (fuel : nat) (n : N) : list byte :=
  match fuel with
  | O => [to_byte n]
  | S fuel => if (n <? 128)%N then [to_byte n] else to_byte (128 + n mod 128) :: varint_bytes fuel (n / 128)
  end.
Lemma to_byte_N : forall n, (n < 256)%N -> Byte.to_N (to_byte n) = n.
Proof.
  intros n L. unfold to_byte. destruct (Byte.of_N n) eqn:E; [now apply Byte.to_of_N|].
  apply Byte.of_N_None_iff in E. lia.
Qed.
Lemma varint_ok : forall fuel n, (n < 128 ^ N.of_nat (1 + fuel))%N ->
  stopped last_group (varint_bytes fuel n) /\ varint_value (varint_bytes fuel n) = n /\
  length (varint_bytes fuel n) <= 1 + fuel.
Proof.
  assert (ONE : forall n, (n < 128)%N -> stopped last_group [to_byte n] /\ varint_value [to_byte n] = n).
  { intros n L. split.
    - exists [], (to_byte n). split; auto. split; auto. unfold last_group. rewrite to_byte_N by lia. lia.
    - cbn [varint_value]. rewrite to_byte_N by lia. rewrite N.mod_small by lia. lia. }
  induction fuel as [|fuel IH]; intros n L.
  - change (128 ^ N.of_nat (1 + 0))%N with 128%N in L. destruct (ONE n L). cbn [varint_bytes]. auto.
  - cbn [varint_bytes]. destruct (N.ltb_spec n 128).
    + destruct (ONE n H). cbn [length]. repeat split; auto. lia.
    + assert (D : (n / 128 < 128 ^ N.of_nat (1 + fuel))%N).
      { apply N.div_lt_upper_bound; [lia|]. replace (N.of_nat (1 + S fuel)) with (N.succ (N.of_nat (1 + fuel))) in L by lia.
        rewrite N.pow_succ_r' in L. lia. }
      destruct (IH _ D) as ((a & z & E & F & Z) & V & LN). pose proof (N.mod_lt n 128 ltac:(lia)) as ML.
      split; [|split].
      * exists (to_byte (128 + n mod 128) :: a), z. rewrite E. split; auto. split; auto. constructor; auto.
        unfold last_group. rewrite to_byte_N by lia. lia.
      * cbn [varint_value]. rewrite V, to_byte_N by lia.
        replace (128 + n mod 128)%N with (n mod 128 + 1 * 128)%N by lia.
        rewrite N.mod_add, N.mod_mod by lia. rewrite (N.div_mod n 128) at 3 by lia. lia.
      * cbn [length]. lia.
Qed.
Arguments varint_ok : clear implicits.

(** The user's codec of byte strings with such a length in front, and sequences of them: the
    combinators of the crate around the two components above. *)
Definition varint_u32 (w : list byte) : N + ErrorKind :=
  if (varint_value w <=? 4294967295)%N then inl (varint_value w) else inr InvalidInput.
Definition varint_dec : Decoder Until N := try_map_decoder (until_decoder last_group) varint_u32.
Definition field_dec := and_then_decoder varint_dec (length_decoder rem_decoder) (length_new rem_dec_new).
Definition fields_dec := collect_decoder field_dec.
Definition fields_dec_new : Collect (AndThen Until (Length RemDec)) (list byte) :=
  collect_new (and_then_new (mkUntil [] false)).
Definition varint_enc : Encoder (list byte) N := map_from_encoder raw_encoder (varint_bytes 4).
Definition field_enc := map_from_encoder (tuple2_encoder varint_enc raw_encoder) (fun b : list byte => (len b, b)).
Definition fields_enc := repeat_encoder field_enc.
Definition fields_enc_new : Repeat (list byte * list byte) (list byte) := repeat_new ([], []).

Definition field_bytes (b : list byte) : list byte := varint_bytes 4 (len b) ++ b.
Definition field_fmt : format (list byte) := fun w b =>
  (len w <= isize_max)%N /\ (len b <= 4294967295)%N /\ w = field_bytes b.
Lemma stopped_nonnil : forall stop w, stopped stop w -> w <> [].
Proof. intros stop w (a & z & -> & _). now destruct a. Qed.
Lemma varint_len : forall b : list byte, (len b <= 4294967295)%N -> (len b < 128 ^ N.of_nat (1 + 4))%N.
Proof. intros b L. eapply N.le_lt_trans; [exact L|]. reflexivity. Qed.
Lemma field_nonnil : forall w i, field_fmt w i -> w <> [].
Proof.
  intros w b (_ & L & ->). intros E. apply app_eq_nil in E. destruct E as [E _].
  destruct (varint_ok 4 (len b) (varint_len b L)) as (T & _). rewrite E in T. now apply stopped_nonnil in T.
Qed.
Lemma field_speaks : exists P, speaks field_dec SD field_fmt P P /\ P (and_then_new (mkUntil [] false)).
Proof.
  exists (fun st => exists s, s = mkUntil [] false /\ st = and_then_new s). split.
  - eapply sp_sub.
    + eapply sp_and_then with (fmt1 := fun n w (i : list byte) => (w = i /\ (len w <= isize_max)%N) /\ len w = n)
        (Post1 := fun _ => True).
      * eapply sp_try_map, sp_own, until_decodes.
      * intros w i (x & (_ & T & _) & _). eapply stopped_nonnil; eauto.
      * intros n. eapply sp_sub; [eapply sp_length with (n := n), sp_own, rem_decodes|..].
        -- intros w i [[-> Q] E]. split; [split; [reflexivity|exact Q]|exact E].
        -- intros s ->. eexists. split; [|reflexivity]. reflexivity.
        -- auto.
      * discriminate.
    + intros w b (L & LB & ->). split; auto. exists (varint_bytes 4 (len b)), b, (len b). split; auto.
      unfold field_bytes, len in L. rewrite app_length in L.
      destruct (varint_ok 4 (len b) (varint_len b LB)) as (T & V & LN).
      split.
      * exists (varint_bytes 4 (len b)). split; [split; auto; split; auto; unfold len; lia|].
        unfold varint_u32. rewrite V. apply N.leb_le in LB. now rewrite LB.
      * split; auto. split; auto. unfold len. lia.
    + auto.
    + auto.
  - eauto.
Qed.
Lemma field_tells : tells field_enc field_fmt (fun s => fst s = [] /\ snd s = []) (fun s => fst s = [] /\ snd s = []) /\
  rests field_enc (fun s => fst s = [] /\ snd s = []).
Proof.
  split.
  - eapply te_sub; [eapply te_map_from, te_pair; [eapply te_map_from|]; apply te_own, raw_encodes|..]; auto.
    intros w b (L & LB & ->). split; auto. exists (varint_bytes 4 (len b)), b. cbn [fst snd].
    unfold field_bytes, len in L. rewrite app_length in L.
    split; auto. split; (split; [reflexivity|]); unfold len; lia.
  - apply map_from_rests. apply (pair_rests (P0 := fun s => s = []) (P1 := fun s => s = [])); [apply map_from_rests|]; apply raw_rests.
Qed.
(** Every list of byte strings that fits in memory survives. *)
Definition fields_bytes (l : list (list byte)) : list byte := concat (map field_bytes l).
Theorem C77_varint_round_trip : forall l,
  (len (fields_bytes l) <= isize_max)%N -> Forall (fun b => (len b <= 4294967295)%N) l ->
  exists f0, forall fuel, f0 < fuel ->
    exists se' sd', encode_into_bytes fields_enc fuel fields_enc_new l = (se', Ok (fields_bytes l)) /\
      decode_from_bytes fields_dec fuel fields_dec_new (fields_bytes l) = (sd', Ok l).
Proof.
  intros l L LF. destruct field_speaks as (P & SP & P0). destruct field_tells as [TE RS].
  assert (FM : many field_fmt (fields_bytes l) l).
  { split; auto. exists (map field_bytes l). split; auto.
    unfold fields_bytes in L. revert L. clear - LF. induction LF as [|b l B F IH]; cbn; intros L; constructor.
    - split; auto. unfold len in *. rewrite !app_length in *. lia.
    - apply IH. unfold len in *. rewrite app_length in L. lia. }
  pose proof (te_repeat TE RS field_nonnil) as T2.
  assert (R2 : rests fields_enc (fun st => exists s, (fst s = [] /\ snd s = []) /\ st = repeat_new s)).
  { intros st (s & p & ->). destruct (repeat_rests RS (s := repeat_new s)) as (A & B & C); [cbn; auto|].
    split; [exact A|]. split; [exact B|]. intros fuel buf e F.
    destruct (C fuel buf e F) as ([s' it] & X & Y & Z). cbn in Y, Z. subst it. exists (repeat_new s'). eauto. }
  pose proof (sp_collect SP field_nonnil) as S2.
  assert (S3 : exists w i, field_fmt w i).
  { exists (field_bytes []), []. repeat split; cbv; discriminate. }
  destruct (@C77_round_trip _ _ _ _ _ _ _ _ _ _ fields_enc_new fields_dec_new (fields_bytes l) l T2 R2 (S2 S3))
    as (f0 & X); eauto.
  { exists ([], []). auto. }
  exists (f0 + length (fields_bytes l)). intros fuel F. destruct (X fuel F) as (se' & sd' & Y1 & Y2 & _). eauto.
Qed.
Print Assumptions C77_varint_round_trip.
Example C77_varint_example :
  fields_bytes [[x61]; []; repeat x00 300] = [x01; x61; x00; xac; x02] ++ repeat x00 300 /\
  exists s s', encode_into_bytes fields_enc 400 fields_enc_new [[x61]; []; repeat x00 300]
               = (s, Ok (fields_bytes [[x61]; []; repeat x00 300])) /\
    decode_from_bytes fields_dec 400 fields_dec_new (fields_bytes [[x61]; []; repeat x00 300])
    = (s', Ok [[x61]; []; repeat x00 300]).
Proof. split; [vm_compute; reflexivity|]. do 2 eexists. split; vm_compute; reflexivity. Qed.

(** *** Any bytes, any calls: the same decoder never panics and never takes more than it says (C08), and does
    not look past what it takes (C65). *)
Lemma take_until_length : forall stop buf p f, take_until stop buf = (p, f) -> length p <= length buf.
Proof.
  intros stop. induction buf as [|b buf IH]; intros p f; cbn; [intros [= <- <-]; auto|].
  destruct (stop b); [intros [= <- <-]; cbn; lia|]. destruct (take_until stop buf) as [q g] eqn:E.
  intros [= <- <-]. cbn. specialize (IH _ _ eq_refl). lia.
Qed.
Lemma until_safe : forall stop,
  dec_safe (until_decoder stop) u64_max 0 true (fun _ => True) (fun _ _ => False) (fun _ => True).
Proof.
  intros stop. exists (fun _ _ => True). split; [|auto]. constructor; auto.
  - reflexivity.
  - intros t [b d] fuel buf e s' r _ _ _. cbn. destruct d; [intros [= <- <-]; repeat split; auto; lia|].
    destruct (take_until stop buf) as [p f] eqn:E. pose proof (take_until_length _ _ E).
    destruct (negb f && is_reached e); intros [= <- <-]; auto. repeat split; auto. discriminate.
  - intros t [b d] s' r _. cbn. destruct d; intros [= <- <-]; auto.
  - intros t [b d] _. cbn. destruct d; auto. reflexivity.
Qed.
Lemma until_fuel_free : forall stop, fuel_free (until_decoder stop).
Proof. intros stop f f' s buf e _ _. reflexivity. Qed.
Lemma fields_composed : exists Item Init,
  composed fields_dec u64_max phys true Item (fun _ _ => False) Init /\ Init fields_dec_new.
Proof.
  do 2 eexists. split.
  - eapply dcm_weaken with (Conf' := fun _ _ => False); [eapply dcm_collect, dcm_and_then|..].
    + eapply composed_bound with (B' := phys);
        [eapply dcm_try_map, dcm_own; [apply until_safe|apply until_fuel_free]|cbv; discriminate].
    + eapply dcm_length, dcm_rest.
    + intros n (w & _ & X). exists rem_dec_new, n. split; auto. split; auto. unfold varint_u32 in X.
      destruct (N.leb_spec (varint_value w) 4294967295); [|discriminate]. injection X as <-. unfold phys. lia.
    + reflexivity.
    + reflexivity.
    + auto.
    + intros i X. exact X.
    + intros ? ? [].
    + intros s X. exact X.
  - exists (and_then_new (mkUntil [] false)). cbn. auto.
Qed.
Theorem C77_varint_no_panic : forall t s,
  calls fields_dec u64_max (fun _ _ => False) fields_dec_new t s ->
  (forall fuel buf e s' r, (t + len buf <= phys)%N -> eos_fits u64_max buf e ->
     dec_decode fields_dec fuel s buf e = (s', r) -> r <> Panic /\ forall n, r = Ok n -> n <= length buf) /\
  (forall s' r, dec_finish fields_dec s = (s', r) -> r <> Panic) /\ dec_req fields_dec s <> Panic.
Proof. intros t s H. destruct fields_composed as (Item & Init & C & I0). exact (C08_no_panic C I0 H). Qed.
Print Assumptions C77_varint_no_panic.
Lemma take_until_firstn : forall stop buf buf' p f, take_until stop buf = (p, f) ->
  length buf' = length buf -> firstn (length p) buf' = firstn (length p) buf ->
  take_until stop buf' = (p, f).
Proof.
  intros stop. induction buf as [|b buf IH]; intros [|b' buf'] p f E L F; try discriminate; auto.
  cbn in E. destruct (stop b) eqn:SB.
  - injection E as <- <-. cbn in F. injection F as ->. cbn. now rewrite SB.
  - destruct (take_until stop buf) as [q g] eqn:Q. injection E as <- <-. cbn in F, L. injection F as -> F.
    cbn. rewrite SB. rewrite (IH buf' q g); auto.
Qed.
Lemma until_no_lookahead : forall stop, no_lookahead (until_decoder stop).
Proof.
  intros stop fuel [b d] buf buf' e s' n. cbn. destruct d; auto.
  destruct (take_until stop buf) as [p f] eqn:E. intros X L F.
  assert (n = length p).
  { destruct (negb f && is_reached e); congruence. }
  subst n. now rewrite (take_until_firstn _ _ _ E L F).
Qed.
Theorem C77_varint_no_lookahead : no_lookahead field_dec.
Proof.
  apply sequential_nl, sq_and_then; [apply sq_try_map, sq_own, until_no_lookahead|apply sq_length, sq_rest].
Qed.
Print Assumptions C77_varint_no_lookahead.

(** The encoder: likewise (C09). *)
Lemma raw_safe : enc_safe raw_encoder phys true (fun b => len b <= phys)%N (fun _ _ => False) (fun s => s = []).
Proof.
  exists (fun _ s => len s <= phys)%N. split; [|intros s ->; cbv; discriminate]. constructor; auto.
  - intros t s s' _ [].
  - intros t s fuel buf e s' buf' r L _ _. cbn [enc_encode raw_encoder]. intros X.
    assert (LS : (len (skipn (Nat.min (length buf) (length s)) s) <= phys)%N).
    { unfold len in *. rewrite skipn_length. lia. }
    injection X as <- <- <-. split.
    + rewrite app_length, firstn_length, skipn_length. lia.
    + destruct ((Nat.min (length buf) (length s) <? length s) && is_reached e); auto.
      split; [lia|]. split; auto. rewrite skipn_app, firstn_length.
      rewrite skipn_all2 by (rewrite firstn_length; lia).
      replace (_ - _) with 0 by lia. reflexivity.
  - intros t s fuel i s' r L LI. cbn. destruct s; intros [= <- <-]; auto.
Qed.
Lemma raw_fuel_free : fuel_free_enc raw_encoder.
Proof. split; intros f f' s x; reflexivity. Qed.
Lemma raw_wo : wo raw_encoder.
Proof.
  intros fuel s buf buf2 e L. cbn [enc_encode raw_encoder]. rewrite L. do 4 eexists. split; [reflexivity|]. split; [reflexivity|].
  rewrite !app_length, !firstn_length, !skipn_length. split; [lia|]. split; [lia|].
  intros n X. assert (n = Nat.min (length buf) (length s)) as -> by (destruct (_ && _); congruence).
  set (k := Nat.min (length buf) (length s)) in *.
  assert (LK : length (firstn k s) = k) by (rewrite firstn_length; lia).
  unfold agree. split; [lia|].
  rewrite !firstn_app, !skipn_app, LK, Nat.sub_diag, !skipn_O, (skipn_all2 (firstn k s)) by lia. auto.
Qed.
Theorem C77_varint_encoder_no_panic : forall t s,
  ecalls fields_enc (Forall (fun b => len b <= 4294967295)%N) (fun _ _ => False) fields_enc_new t s ->
  (forall fuel buf e s' buf' r, (t + len buf <= phys)%N -> eos_fits u64_max buf e ->
     enc_encode fields_enc fuel s buf e = (s', buf', r) ->
     r <> Panic /\ length buf' = length buf /\
     forall n, r = Ok n -> n <= length buf /\ skipn n buf' = skipn n buf) /\
  (forall fuel i s' r, Forall (fun b => len b <= 4294967295)%N i -> enc_start fields_enc fuel s i = (s', r) -> r <> Panic) /\
  enc_req fields_enc s <> Panic.
Proof.
  intros t s H.
  assert (C : composed_enc fields_enc 0 true (Forall (fun b => len b <= 4294967295)%N) (fun _ _ => False)
    (fun st => st = fields_enc_new)).
  { pose proof (ecm_own raw_safe raw_fuel_free raw_wo) as R.
    eapply ecm_weaken with (Conf' := fun _ _ => False);
      [eapply ecm_repeat, ecm_map_from, ecm_pair; [eapply ecm_map_from; exact R|exact R|cbv; discriminate]|..].
    - reflexivity.
    - auto.
    - intros l F. eapply Forall_impl; [|exact F]. intros b L. cbv beta. cbn [fst snd]. split.
      + destruct (varint_ok 4 (len b) (varint_len b L)) as (_ & _ & X). unfold phys, len in *. lia.
      + eapply N.le_trans; [exact L|]. cbv; discriminate.
    - intros ? ? [].
    - intros st ->. exists ([], []). auto. }
  destruct (C09_no_panic C eq_refl H) as (A & B & D & _). auto.
Qed.
Print Assumptions C77_varint_encoder_no_panic.
