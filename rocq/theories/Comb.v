(** * Combinators: src/combinator.rs. *)
From Verif Require Export Iface Prim.
Set Implicit Arguments.

(** ** Map: src/combinator.rs:17-72.  The state is the inner decoder's. *)
Definition map_decoder {S I T} (D : Decoder S I) (f : I -> T) : Decoder S T :=
  {| dec_decode := dec_decode D;
     dec_finish := fun s => let '(s', r) := dec_finish D s in (s', rmap f r);
     dec_req := dec_req D;
     dec_idle := dec_idle D |}.

(** [Result::map_err], as at src/combinator.rs:119-136. *)
Definition rmap_err {A} (f : ErrorKind -> ErrorKind) (r : res A) : res A :=
  match r with Err k => Err (f k) | _ => r end.

(** ** MapErr: src/combinator.rs:78-138 (decoder), 139-176 (encoder) *)
Definition map_err_decoder {S I} (D : Decoder S I) (f : ErrorKind -> ErrorKind) : Decoder S I :=
  {| dec_decode := fun fuel s buf e =>
       let '(s', r) := dec_decode D fuel s buf e in (s', rmap_err f r);
     dec_finish := fun s => let '(s', r) := dec_finish D s in (s', rmap_err f r);
     dec_req := dec_req D;
     dec_idle := dec_idle D |}.
Definition map_err_encoder {S I} (E : Encoder S I) (f : ErrorKind -> ErrorKind) : Encoder S I :=
  {| enc_encode := fun fuel s buf e =>
       let '(s', buf', r) := enc_encode E fuel s buf e in (s', buf', rmap_err f r);
     enc_start := fun fuel s i => let '(s', r) := enc_start E fuel s i in (s', rmap_err f r);
     enc_req := enc_req E;
     enc_idle := enc_idle E |}.

(** ** AndThen: src/combinator.rs:185-239 *)
Record AndThen (S0 S1 : Type) := mkAndThen { at_inner0 : S0; at_inner1 : option S1 }.
Arguments mkAndThen {S0 S1}.
Definition and_then_new {S0 S1} (s0 : S0) : AndThen S0 S1 := mkAndThen s0 None.

(** src/combinator.rs:218-220. *)
Definition and_then_body {S0 S1 I1} (D1 : Decoder S1 I1) (fuel : nat) (s0 : S0) (s1 : S1)
    (off : nat) (buf : list byte) (e : Eos) : AndThen S0 S1 * res nat :=
  match try_decode D1 fuel s1 off buf e with
  | TGo s1' off' => (mkAndThen s0 (Some s1'), Ok off')
  | TRet s1' r => (mkAndThen s0 (Some s1'), r)
  end.

(** src/combinator.rs:210-221. *)
Definition and_then_decode {S0 S1 I0 I1} (D0 : Decoder S0 I0) (D1 : Decoder S1 I1)
    (f : I0 -> S1) (fuel : nat) (st : AndThen S0 S1) (buf : list byte) (e : Eos)
    : AndThen S0 S1 * res nat :=
  match at_inner1 st with
  | Some s1 => and_then_body D1 fuel (at_inner0 st) s1 0 buf e
  | None =>
      match try_decode D0 fuel (at_inner0 st) 0 buf e with
      | TRet s0 r => (mkAndThen s0 None, r)
      | TGo s0 off =>
          match dec_finish D0 s0 with
          | (s0', Ok i0) => and_then_body D1 fuel s0' (f i0) off buf e
          | (s0', r) => (mkAndThen s0' None, rcast r)
          end
      end
  end.

(** src/combinator.rs:202-239. *)
Definition and_then_decoder {S0 S1 I0 I1} (D0 : Decoder S0 I0) (D1 : Decoder S1 I1)
    (f : I0 -> S1) : Decoder (AndThen S0 S1) I1 :=
  {| dec_decode := and_then_decode D0 D1 f;
     dec_finish := fun st =>
       match at_inner1 st with
       | None => (st, Err IncompleteDecoding)
       | Some s1 => (mkAndThen (at_inner0 st) None, snd (dec_finish D1 s1))
       end;
     dec_req := fun st =>
       match at_inner1 st with Some s1 => dec_req D1 s1 | None => dec_req D0 (at_inner0 st) end;
     dec_idle := fun st =>
       match at_inner1 st with Some s1 => dec_idle D1 s1 | None => false end |}.

(** ** MapFrom: src/combinator.rs:246-306 *)
Definition map_from_encoder {S I T} (E : Encoder S I) (f : T -> I) : Encoder S T :=
  {| enc_encode := enc_encode E;
     enc_start := fun fuel s t => enc_start E fuel s (f t);
     enc_req := enc_req E;
     enc_idle := enc_idle E |}.

(** ** TryMapFrom: src/combinator.rs:313-376 *)
Definition try_map_from_encoder {S I T} (E : Encoder S I) (f : T -> I + ErrorKind)
    : Encoder S T :=
  {| enc_encode := enc_encode E;
     enc_start := fun fuel s t =>
       match f t with
       | inl i => enc_start E fuel s i
       | inr k => (s, Err k)
       end;
     enc_req := enc_req E;
     enc_idle := enc_idle E |}.

(** ** Repeat: src/combinator.rs:382-385.  The iterator is a finite list. *)
Record Repeat (S I : Type) := mkRepeat { rp_inner : S; rp_items : option (list I) }.
Arguments mkRepeat {S I}.
Definition repeat_new {S I} (s : S) : Repeat S I := mkRepeat s None.

(** The inner [while self.inner.is_idle()] loop: src/combinator.rs:416-423. *)
Inductive pulled (S I : Type) :=
| PullGo (s : S) (rest : list I)
| PullDone (s : S)
| PullFail (s : S) (rest : list I) (r : res nat).
Arguments PullGo {S I} s rest.
Arguments PullDone {S I} s.
Arguments PullFail {S I} s rest r.
Fixpoint repeat_pull {S I} (E : Encoder S I) (fuel : nat) (s : S) (items : list I)
    : pulled S I :=
  if enc_idle E s then
    match items with
    | [] => PullDone s
    | i :: rest =>
        match enc_start E fuel s i with
        | (s', Ok _) => repeat_pull E fuel s' rest
        | (s', r) => PullFail s' rest (rcast r)
        end
    end
  else PullGo s items.

(** The outer [loop]: src/combinator.rs:415-430.  [n] bounds its rounds. *)
Fixpoint repeat_loop {S I} (E : Encoder S I) (n fuel : nat) (st : Repeat S I) (off : nat)
    (buf : list byte) (e : Eos) : Repeat S I * list byte * res nat :=
  match n with
  | 0 => (st, buf, OutOfFuel)
  | S n' =>
      let items := match rp_items st with Some l => l | None => [] end in
      let wrap rest := match rp_items st with Some _ => Some rest | None => None end in
      match repeat_pull E fuel (rp_inner st) items with
      | PullDone s => (mkRepeat s None, buf, Ok off)
      | PullFail s rest r => (mkRepeat s (wrap rest), buf, r)
      | PullGo s rest =>
          match slice_from off buf with
          | None => (mkRepeat s (wrap rest), buf, Panic)
          | Some b =>
              match enc_encode E fuel s b e with
              | (s', b', Ok size) =>
                  let buf' := firstn off buf ++ b' in
                  let st' := mkRepeat s' (wrap rest) in
                  if size =? 0 then (st', buf', Ok (off + size))
                  else repeat_loop E n' fuel st' (off + size) buf' e
              | (s', b', r) => (mkRepeat s' (wrap rest), firstn off buf ++ b', r)
              end
          end
      end
  end.

(** src/combinator.rs:447-449. *)
Definition repeat_idle {S I} (st : Repeat S I) : bool :=
  match rp_items st with None => true | Some _ => false end.

(** src/combinator.rs:406-450. *)
Definition repeat_encoder {S I} (E : Encoder S I) : Encoder (Repeat S I) (list I) :=
  {| enc_encode := fun fuel st buf e => repeat_loop E fuel fuel st 0 buf e;
     enc_start := fun _ st items =>
       if repeat_idle st then (mkRepeat (rp_inner st) (Some items), Ok tt)
       else (st, Err EncoderFull);
     enc_req := fun st => Ok (if repeat_idle st then Finite 0 else Unknown);
     enc_idle := @repeat_idle S I |}.

(** ** Omittable: src/combinator.rs:461-526 *)
Record Omittable (S : Type) := mkOmit { om_inner : S; om_omit : bool }.
Arguments mkOmit {S}.
(** [do_omit]: src/combinator.rs:483-485. *)
Definition omit_set {S} (st : Omittable S) (b : bool) : Omittable S := mkOmit (om_inner st) b.
Definition omit_decoder {S I} (D : Decoder S I) : Decoder (Omittable S) (option I) :=
  {| dec_decode := fun fuel st buf e =>
       if om_omit st then (st, Ok 0)
       else let '(s', r) := dec_decode D fuel (om_inner st) buf e in (mkOmit s' (om_omit st), r);
     dec_finish := fun st =>
       if om_omit st then (st, Ok None)
       else let '(s', r) := dec_finish D (om_inner st) in
            (mkOmit s' (om_omit st), rmap Some r);
     dec_req := fun st => if om_omit st then Ok (Finite 0) else dec_req D (om_inner st);
     dec_idle := fun st => om_omit st || dec_idle D (om_inner st) |}.

(** ** Optional: src/combinator.rs:530-577 *)
Definition optional_encoder {S I} (E : Encoder S I) : Encoder S (option I) :=
  {| enc_encode := enc_encode E;
     enc_start := fun fuel s item =>
       match item with
       | Some i => enc_start E fuel s i
       | None => (s, Ok tt)
       end;
     enc_req := enc_req E;
     enc_idle := enc_idle E |}.

(** ** Collect: src/combinator.rs:586-658.  [T: Default + Extend] is a list; [Extend.v] has any [T]. *)
Record Collect (S I : Type) := mkCollect { cl_inner : S; cl_items : list I; cl_eos : bool }.
Arguments mkCollect {S I}.
Definition collect_new {S I} (s : S) : Collect S I := mkCollect s [] false.

(** The [while] loop: src/combinator.rs:628-637.  [n] bounds its rounds. *)
Fixpoint collect_loop {S I} (D : Decoder S I) (n fuel : nat) (s : S) (items : list I)
    (off : nat) (buf : list byte) (e : Eos) : Collect S I * res nat :=
  if off <? length buf then
    match n with
    | 0 => (mkCollect s items false, OutOfFuel)
    | S n' =>
        match try_decode D fuel s off buf e with
        | TRet s' r => (mkCollect s' items false, r)
        | TGo s' off' =>
            match dec_finish D s' with
            | (s'', Ok i) => collect_loop D n' fuel s'' (items ++ [i]) off' buf e
            | (s'', r) => (mkCollect s'' items false, rcast r)
            end
        end
    end
  else (mkCollect s items (is_reached e), Ok off).

(** src/combinator.rs:615-658. *)
Definition collect_decoder {S I} (D : Decoder S I) : Decoder (Collect S I) (list I) :=
  {| dec_decode := fun fuel st buf e =>
       if cl_eos st then (st, Ok 0)
       else collect_loop D fuel fuel (cl_inner st) (cl_items st) 0 buf e;
     dec_finish := fun st =>
       if cl_eos st then (mkCollect (cl_inner st) [] false, Ok (cl_items st))
       else (st, Err IncompleteDecoding);
     dec_req := fun st => if cl_eos st then Ok (Finite 0) else dec_req D (cl_inner st);
     dec_idle := fun st => cl_eos st |}.

(** ** Length: src/combinator.rs:664-719 *)
Record Length (S : Type) := mkLength { ln_inner : S; ln_expected : N; ln_remaining : N }.
Arguments mkLength {S}.
(** [new]: src/combinator.rs:670-676. *)
Definition length_new {S} (s : S) (n : N) : Length S := mkLength s n n.
(** [set_expected_bytes]: src/combinator.rs:688-698. *)
Definition length_set_expected {S} (st : Length S) (n : N) : Length S * res unit :=
  if (ln_remaining st =? ln_expected st)%N then (mkLength (ln_inner st) n n, Ok tt)
  else (st, Err IncompleteDecoding).

(** src/combinator.rs:723-735. *)
Definition length_decode {S I} (D : Decoder S I) (fuel : nat) (st : Length S)
    (buf : list byte) (e : Eos) : Length S * res nat :=
  let limit := N.min (len buf) (ln_remaining st) in
  let required := (ln_remaining st - limit)%N in
  let expected_eos := eos_with_remaining (Finite required) in
  let go :=
    let '(s', r) := dec_decode D fuel (ln_inner st) (firstn (N.to_nat limit) buf) expected_eos in
    match r with
    | Ok size =>
        match u64_sub (ln_remaining st) (N.of_nat size) with
        | Some rem => (mkLength s' (ln_expected st) rem, Ok size)
        | None => (mkLength s' (ln_expected st) (ln_remaining st), Panic)
        end
    | r' => (mkLength s' (ln_expected st) (ln_remaining st), r')
    end in
  match bc_to_u64 (remaining_bytes e) with
  | Some remaining =>
      match u64_add remaining (len buf) with
      | None => (st, Panic)
      | Some remaining' => if (required <=? remaining')%N then go else (st, Err UnexpectedEos)
      end
  | None => go
  end.

(** src/combinator.rs:720-751. *)
Definition length_decoder {S I} (D : Decoder S I) : Decoder (Length S) I :=
  {| dec_decode := length_decode D;
     dec_finish := fun st =>
       if (ln_remaining st =? 0)%N then
         let '(s', r) := dec_finish D (ln_inner st) in
         (mkLength s' (ln_expected st) (ln_expected st), r)
       else (st, Err IncompleteDecoding);
     dec_req := fun st => Ok (Finite (ln_remaining st));
     dec_idle := fun st => dec_idle D (ln_inner st) |}.

(** src/combinator.rs:755-776. *)
Definition length_encode {S I} (E : Encoder S I) (fuel : nat) (st : Length S)
    (buf : list byte) (e : Eos) : Length S * list byte * res nat :=
  let short := (len buf <? ln_remaining st)%N in
  if short && is_reached e then (st, buf, Err UnexpectedEos)
  else
    let limit := if short then length buf else N.to_nat (ln_remaining st) in
    let e' := if short then e else eos_new true in
    let '(s', b', r) := enc_encode E fuel (ln_inner st) (firstn limit buf) e' in
    let buf' := b' ++ skipn limit buf in
    match r with
    | Ok size =>
        match u64_sub (ln_remaining st) (N.of_nat size) with
        | None => (mkLength s' (ln_expected st) (ln_remaining st), buf', Panic)
        | Some rem =>
            if enc_idle E s' && negb (rem =? 0)%N
            then (mkLength s' (ln_expected st) rem, buf', Err InvalidInput)
            else (mkLength s' (ln_expected st) rem, buf', Ok size)
        end
    | r' => (mkLength s' (ln_expected st) (ln_remaining st), buf', r')
    end.

(** src/combinator.rs:752-795. *)
Definition length_encoder {S I} (E : Encoder S I) : Encoder (Length S) I :=
  {| enc_encode := length_encode E;
     enc_start := fun fuel st item =>
       if (ln_remaining st =? ln_expected st)%N then
         let '(s', r) := enc_start E fuel (ln_inner st) item in
         (mkLength s' (ln_expected st) (ln_expected st), r)
       else (st, Err EncoderFull);
     enc_req := fun st => Ok (Finite (ln_remaining st));
     enc_idle := fun st => (ln_remaining st =? 0)%N |}.
(** src/combinator.rs:796-800. *)
Definition length_enc_exact {S} (st : Length S) : res N := Ok (ln_remaining st).

(** ** CollectN: src/combinator.rs:806-884 *)
Record CollectN (S I : Type) :=
  mkCollectN { cn_inner : S; cn_remaining : nat; cn_items : list I }.
Arguments mkCollectN {S I}.
(** [new]: src/combinator.rs:837-843; [set_remaining_items]: src/combinator.rs:818-820. *)
Definition collectn_new {S I} (s : S) (n : nat) : CollectN S I := mkCollectN s n [].
Definition collectn_set {S I} (st : CollectN S I) (n : nat) : CollectN S I :=
  mkCollectN (cn_inner st) n (cn_items st).

(** The [while] loop and the final check: src/combinator.rs:852-865; every round that
    comes back to the loop head has decremented [remaining_items]. *)
Fixpoint collectn_loop {S I} (D : Decoder S I) (fuel : nat) (remaining : nat) (s : S)
    (items : list I) (off : nat) (buf : list byte) (e : Eos) : CollectN S I * res nat :=
  let stop :=
    (mkCollectN s remaining items,
     if negb (remaining =? 0) && is_reached e then Err UnexpectedEos else Ok off) in
  match remaining with
  | 0 => stop
  | S remaining' =>
      if off <? length buf then
        match try_decode D fuel s off buf e with
        | TRet s' r => (mkCollectN s' remaining items, r)
        | TGo s' off' =>
            match dec_finish D s' with
            | (s'', Ok i) => collectn_loop D fuel remaining' s'' (items ++ [i]) off' buf e
            | (s'', r) => (mkCollectN s'' remaining items, rcast r)
            end
        end
      else stop
  end.

(** src/combinator.rs:845-884. *)
Definition collectn_decoder {S I} (D : Decoder S I) : Decoder (CollectN S I) (list I) :=
  {| dec_decode := fun fuel st buf e =>
       collectn_loop D fuel (cn_remaining st) (cn_inner st) (cn_items st) 0 buf e;
     dec_finish := fun st =>
       if cn_remaining st =? 0
       then (mkCollectN (cn_inner st) (cn_remaining st) [], Ok (cn_items st))
       else (st, Err IncompleteDecoding);
     dec_req := fun st =>
       if cn_remaining st =? 0 then Ok (Finite 0) else dec_req D (cn_inner st);
     dec_idle := fun st => cn_remaining st =? 0 |}.

(** ** TryMap: src/combinator.rs:890-943 *)
Definition try_map_decoder {S I T} (D : Decoder S I) (f : I -> T + ErrorKind) : Decoder S T :=
  {| dec_decode := dec_decode D;
     dec_finish := fun s =>
       let '(s', r) := dec_finish D s in
       (s', rbind r (fun i => match f i with inl t => Ok t | inr k => Err k end));
     dec_req := dec_req D;
     dec_idle := dec_idle D |}.

(** ** MaxBytes: src/combinator.rs:951-1005 *)
Record MaxBytes (S : Type) := mkMax { mx_inner : S; mx_consumed : N; mx_max : N }.
Arguments mkMax {S}.
(** [new]: src/combinator.rs:957-963. *)
Definition max_new {S} (s : S) (n : N) : MaxBytes S := mkMax s 0 n.
(** [set_max_bytes]: src/combinator.rs:980-989. *)
Definition max_set {S} (st : MaxBytes S) (n : N) : MaxBytes S * res unit :=
  if (mx_consumed st <=? n)%N then (mkMax (mx_inner st) (mx_consumed st) n, Ok tt)
  else (st, Err InvalidInput).

(** The limit check: src/combinator.rs:1010-1027. *)
Definition max_check {S} (st : MaxBytes S) (buf : list byte) (e : Eos) : res unit :=
  match remaining_bytes e with
  | Infinite => Err InvalidInput
  | Unknown =>
      match u64_sub (mx_max st) (mx_consumed st) with
      | None => Panic
      | Some consumable => if (len buf <=? consumable)%N then Ok tt else Err InvalidInput
      end
  | Finite remaining =>
      match u64_sub (mx_max st) (mx_consumed st) with
      | None => Panic
      | Some consumable =>
          match u64_add (len buf) remaining with
          | None => Panic
          | Some total => if (total <=? consumable)%N then Ok tt else Err InvalidInput
          end
      end
  end.

(** src/combinator.rs:1009-1032. *)
Definition max_decode {S I} (D : Decoder S I) (fuel : nat) (st : MaxBytes S)
    (buf : list byte) (e : Eos) : MaxBytes S * res nat :=
  match max_check st buf e with
  | Ok _ =>
      let '(s', r) := dec_decode D fuel (mx_inner st) buf e in
      match r with
      | Ok size =>
          match u64_add (mx_consumed st) (N.of_nat size) with
          | Some c => (mkMax s' c (mx_max st), Ok size)
          | None => (mkMax s' (mx_consumed st) (mx_max st), Panic)
          end
      | r' => (mkMax s' (mx_consumed st) (mx_max st), r')
      end
  | x => (st, rcast x)
  end.

(** src/combinator.rs:1006-1046. *)
Definition max_decoder {S I} (D : Decoder S I) : Decoder (MaxBytes S) I :=
  {| dec_decode := max_decode D;
     dec_finish := fun st =>
       let '(s', r) := dec_finish D (mx_inner st) in (mkMax s' 0 (mx_max st), r);
     dec_req := fun st => dec_req D (mx_inner st);
     dec_idle := fun st => dec_idle D (mx_inner st) |}.

(** src/combinator.rs:1050-1060. *)
Definition max_encode {S I} (E : Encoder S I) (fuel : nat) (st : MaxBytes S)
    (buf : list byte) (e : Eos) : MaxBytes S * list byte * res nat :=
  let '(s', buf', r) := enc_encode E fuel (mx_inner st) buf e in
  match r with
  | Ok size =>
      match u64_add (mx_consumed st) (N.of_nat size) with
      | None => (mkMax s' (mx_consumed st) (mx_max st), buf', Panic)
      | Some c =>
          if (c <=? mx_max st)%N
          then (mkMax s' (if enc_idle E s' then 0%N else c) (mx_max st), buf', Ok size)
          else (mkMax s' c (mx_max st), buf', Err InvalidInput)
      end
  | r' => (mkMax s' (mx_consumed st) (mx_max st), buf', r')
  end.

(** src/combinator.rs:1047-1078. *)
Definition max_encoder {S I} (E : Encoder S I) : Encoder (MaxBytes S) I :=
  {| enc_encode := max_encode E;
     enc_start := fun fuel st item =>
       let '(s', r) := enc_start E fuel (mx_inner st) item in
       (mkMax s' (mx_consumed st) (mx_max st), r);
     enc_req := fun st => enc_req E (mx_inner st);
     enc_idle := fun st => enc_idle E (mx_inner st) |}.
Definition max_enc_exact {S} (exact : S -> res N) (st : MaxBytes S) : res N :=
  exact (mx_inner st).

(** ** PreEncode: src/combinator.rs:1084-1136 *)
Record PreEncode (S : Type) := mkPre { pre_inner : S; pre_encoded : BytesEnc (list byte) }.
Arguments mkPre {S}.
Definition pre_new {S} (s : S) : PreEncode S := mkPre s bytes_enc_new.
(** src/combinator.rs:1118-1122. *)
Definition pre_start {S I} (E : Encoder S I) (fuel : nat) (st : PreEncode S) (item : I)
    : PreEncode S * res unit :=
  match encode_into_bytes E fuel (pre_inner st) item with
  | (s', Ok buf) =>
      let '(b', r) := bytes_start (pre_encoded st) buf in (mkPre s' b', r)
  | (s', r) => (mkPre s' (pre_encoded st), rcast r)
  end.
(** src/combinator.rs:1111-1136. *)
Definition pre_encoder {S I} (E : Encoder S I) : Encoder (PreEncode S) I :=
  {| enc_encode := fun _ st buf e =>
       let '(b', buf', r) := bytes_encode vec_box (pre_encoded st) buf e in
       (mkPre (pre_inner st) b', buf', r);
     enc_start := pre_start E;
     enc_req := fun st => rmap Finite (bytes_enc_exact vec_box (pre_encoded st));
     enc_idle := fun st => bytes_enc_idle (pre_encoded st) |}.
Definition pre_enc_exact {S} (st : PreEncode S) : res N :=
  bytes_enc_exact vec_box (pre_encoded st).

(** ** Slice: src/combinator.rs:1142-1188 *)
Record Slice (S : Type) := mkSlice { sl_inner : S; sl_consumable : N }.
Arguments mkSlice {S}.
(** [new]: src/combinator.rs:1147-1152; [set_consumable_bytes]: 1162-1164;
    [is_suspended]: 1170-1172. *)
Definition slice_new {S} (s : S) : Slice S := mkSlice s 0.
Definition slice_set {S} (st : Slice S) (n : N) : Slice S := mkSlice (sl_inner st) n.
Definition slice_suspended {S} (st : Slice S) : bool := (sl_consumable st =? 0)%N.

(** src/combinator.rs:1192-1198. *)
Definition slice_decode {S I} (D : Decoder S I) (fuel : nat) (st : Slice S)
    (buf : list byte) (e : Eos) : Slice S * res nat :=
  let limit := N.min (len buf) (sl_consumable st) in
  match eos_back e (len buf - limit) with
  | None => (st, Panic)
  | Some e' =>
      let '(s', r) := dec_decode D fuel (sl_inner st) (firstn (N.to_nat limit) buf) e' in
      match r with
      | Ok size =>
          match u64_sub (sl_consumable st) (N.of_nat size) with
          | Some c => (mkSlice s' c, Ok size)
          | None => (mkSlice s' (sl_consumable st), Panic)
          end
      | r' => (mkSlice s' (sl_consumable st), r')
      end
  end.
(** src/combinator.rs:1189-1211. *)
Definition slice_decoder {S I} (D : Decoder S I) : Decoder (Slice S) I :=
  {| dec_decode := slice_decode D;
     dec_finish := fun st =>
       let '(s', r) := dec_finish D (sl_inner st) in (mkSlice s' (sl_consumable st), r);
     dec_req := fun st => dec_req D (sl_inner st);
     dec_idle := fun st => dec_idle D (sl_inner st) |}.

(** src/combinator.rs:1215-1221. *)
Definition slice_encode {S I} (E : Encoder S I) (fuel : nat) (st : Slice S)
    (buf : list byte) (e : Eos) : Slice S * list byte * res nat :=
  let limit := N.to_nat (N.min (len buf) (sl_consumable st)) in
  match eos_back e (N.of_nat (length buf - limit)) with
  | None => (st, buf, Panic)
  | Some e' =>
      let '(s', b', r) := enc_encode E fuel (sl_inner st) (firstn limit buf) e' in
      let buf' := b' ++ skipn limit buf in
      match r with
      | Ok size =>
          match u64_sub (sl_consumable st) (N.of_nat size) with
          | Some c => (mkSlice s' c, buf', Ok size)
          | None => (mkSlice s' (sl_consumable st), buf', Panic)
          end
      | r' => (mkSlice s' (sl_consumable st), buf', r')
      end
  end.
(** src/combinator.rs:1212-1239. *)
Definition slice_encoder {S I} (E : Encoder S I) : Encoder (Slice S) I :=
  {| enc_encode := slice_encode E;
     enc_start := fun fuel st item =>
       let '(s', r) := enc_start E fuel (sl_inner st) item in
       (mkSlice s' (sl_consumable st), r);
     enc_req := fun st => enc_req E (sl_inner st);
     enc_idle := fun st => enc_idle E (sl_inner st) |}.
Definition slice_enc_exact {S} (exact : S -> res N) (st : Slice S) : res N :=
  exact (sl_inner st).

(** ** Last: src/combinator.rs:1245-1304.  [Item = Never] (src/marker.rs:4-5) is an empty type. *)
Record Last (S I : Type) := mkLast { la_inner : S; la_item : option I }.
Arguments mkLast {S I}.
Definition last_new {S I} (s : S) (item : I) : Last S I := mkLast s (Some item).
(** src/combinator.rs:1275-1282. *)
Definition last_encode {S I} (E : Encoder S I) (fuel : nat) (st : Last S I)
    (buf : list byte) (e : Eos) : Last S I * list byte * res nat :=
  let run s item :=
    let '(s', buf', r) := enc_encode E fuel s buf e in (mkLast s' item, buf', r) in
  if enc_idle E (la_inner st) then
    match la_item st with
    | Some i =>
        match enc_start E fuel (la_inner st) i with
        | (s', Ok _) => run s' None
        | (s', r) => (mkLast s' None, buf, rcast r)
        end
    | None => run (la_inner st) None
    end
  else run (la_inner st) (la_item st).
(** src/combinator.rs:1272-1304. *)
Definition last_encoder {S I} (E : Encoder S I) : Encoder (Last S I) Empty_set :=
  {| enc_encode := last_encode E;
     enc_start := fun _ st (never : Empty_set) => match never with end;
     enc_req := fun st =>
       match la_item st with Some _ => Ok Unknown | None => enc_req E (la_inner st) end;
     enc_idle := fun st =>
       match la_item st with None => enc_idle E (la_inner st) | Some _ => false end |}.
Definition last_enc_exact {S I} (exact : S -> res N) (st : Last S I) : res N :=
  exact (la_inner st).

(** ** Peekable: src/combinator.rs:1309-1392 *)
Record Peekable (S I : Type) := mkPeek { pk_inner : S; pk_item : option I }.
Arguments mkPeek {S I}.
Definition peek_new {S I} (s : S) : Peekable S I := mkPeek s None.
(** [peek]: src/combinator.rs:1315-1317. *)
Definition peek {S I} (st : Peekable S I) : option I := pk_item st.
(** src/combinator.rs:1364-1374. *)
Definition peek_decode {S I} (D : Decoder S I) (fuel : nat) (st : Peekable S I)
    (buf : list byte) (e : Eos) : Peekable S I * res nat :=
  match pk_item st with
  | Some _ => (st, Ok 0)
  | None =>
      match dec_decode D fuel (pk_inner st) buf e with
      | (s', Ok size) =>
          if dec_idle D s' then
            match dec_finish D s' with
            | (s'', Ok i) => (mkPeek s'' (Some i), Ok size)
            | (s'', r) => (mkPeek s'' None, rcast r)
            end
          else (mkPeek s' None, Ok size)
      | (s', r) => (mkPeek s' None, r)
      end
  end.
(** src/combinator.rs:1361-1392. *)
Definition peek_decoder {S I} (D : Decoder S I) : Decoder (Peekable S I) I :=
  {| dec_decode := peek_decode D;
     dec_finish := fun st =>
       match pk_item st with
       | Some i => (mkPeek (pk_inner st) None, Ok i)
       | None => (st, Err IncompleteDecoding)
       end;
     dec_req := fun st =>
       match pk_item st with Some _ => Ok (Finite 0) | None => dec_req D (pk_inner st) end;
     dec_idle := fun st => match pk_item st with Some _ => true | None => false end |}.

(** ** MaybeEos: src/combinator.rs:1398-1452 *)
Record MaybeEos (S : Type) := mkMaybe { my_inner : S; my_started : bool }.
Arguments mkMaybe {S}.
Definition maybe_new {S} (s : S) : MaybeEos S := mkMaybe s false.
(** src/combinator.rs:1428-1438. *)
Definition maybe_decode {S I} (D : Decoder S I) (fuel : nat) (st : MaybeEos S)
    (buf : list byte) (e : Eos) : MaybeEos S * res nat :=
  let e' := if negb (my_started st) && (length buf =? 0) && is_reached e
            then eos_new false else e in
  let '(s', r) := dec_decode D fuel (my_inner st) buf e' in
  match r with
  | Ok size => (mkMaybe s' (my_started st || negb (size =? 0)), Ok size)
  | r' => (mkMaybe s' (my_started st), r')
  end.
(** src/combinator.rs:1425-1452. *)
Definition maybe_decoder {S I} (D : Decoder S I) : Decoder (MaybeEos S) I :=
  {| dec_decode := maybe_decode D;
     dec_finish := fun st =>
       let '(s', r) := dec_finish D (my_inner st) in (mkMaybe s' false, r);
     dec_req := fun st => dec_req D (my_inner st);
     dec_idle := fun st => dec_idle D (my_inner st) |}.
