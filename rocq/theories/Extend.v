(** * [collect()] and [collectn()] into any collection *)
From Verif Require Export Comb Observe.
Set Implicit Arguments.

(** A collection is a type [T] with [dflt] ([Default::default]) and [ext] ([Extend::extend] of one item:
    [extend(iter::once(item))]); nothing is assumed about them: they may sort, drop or merge items.
    [Comb.v] models [Collect] and [CollectN] over lists; here the same code fills any collection
    (src/combinator.rs:615-619 and 845-849, [T: Default + Extend<D::Item>]). *)
Section Model.
  Context {S I T : Type} (D : Decoder S I) (dflt : T) (ext : T -> I -> T).

  (** src/combinator.rs:586-590 *)
  Record CollectInto := mkInto { ci_inner : S; ci_items : T; ci_eos : bool }.
  (** src/combinator.rs:607-613 *)
  Definition into_new (s : S) : CollectInto := mkInto s dflt false.

  (** The [while] loop and what follows it: src/combinator.rs:628-637.  [n] bounds its rounds. *)
  Fixpoint into_loop (n fuel : nat) (s : S) (items : T) (off : nat) (buf : list byte) (e : Eos)
      : CollectInto * res nat :=
    if off <? length buf then
      match n with
      | 0 => (mkInto s items false, OutOfFuel)
      | Datatypes.S n' =>
          match try_decode D fuel s off buf e with
          | TRet s' r => (mkInto s' items false, r)
          | TGo s' off' =>
              match dec_finish D s' with
              | (s'', Ok i) => into_loop n' fuel s'' (ext items i) off' buf e
              | (s'', r) => (mkInto s'' items false, rcast r)
              end
          end
      end
    else (mkInto s items (is_reached e), Ok off).

  (** src/combinator.rs:615-658; [mem::take] (643-648) leaves [T::default()]. *)
  Definition into_decoder : Decoder CollectInto T :=
    {| dec_decode := fun fuel st buf e =>
         if ci_eos st then (st, Ok 0)
         else into_loop fuel fuel (ci_inner st) (ci_items st) 0 buf e;
       dec_finish := fun st =>
         if ci_eos st then (mkInto (ci_inner st) dflt false, Ok (ci_items st))
         else (st, Err IncompleteDecoding);
       dec_req := fun st => if ci_eos st then Ok (Finite 0) else dec_req D (ci_inner st);
       dec_idle := fun st => ci_eos st |}.

  (** src/combinator.rs:806-810 *)
  Record CollectNInto := mkNInto { ni_inner : S; ni_remaining : nat; ni_items : T }.
  (** [new]: src/combinator.rs:837-843; [set_remaining_items]: src/combinator.rs:818-820. *)
  Definition ninto_new (s : S) (n : nat) : CollectNInto := mkNInto s n dflt.
  Definition ninto_set (st : CollectNInto) (n : nat) : CollectNInto :=
    mkNInto (ni_inner st) n (ni_items st).

  (** The [while] loop and the final check: src/combinator.rs:852-865. *)
  Fixpoint ninto_loop (fuel : nat) (remaining : nat) (s : S) (items : T) (off : nat)
      (buf : list byte) (e : Eos) : CollectNInto * res nat :=
    let stop :=
      (mkNInto s remaining items,
       if negb (remaining =? 0) && is_reached e then Err UnexpectedEos else Ok off) in
    match remaining with
    | 0 => stop
    | Datatypes.S remaining' =>
        if off <? length buf then
          match try_decode D fuel s off buf e with
          | TRet s' r => (mkNInto s' remaining items, r)
          | TGo s' off' =>
              match dec_finish D s' with
              | (s'', Ok i) => ninto_loop fuel remaining' s'' (ext items i) off' buf e
              | (s'', r) => (mkNInto s'' remaining items, rcast r)
              end
          end
        else stop
    end.

  (** src/combinator.rs:845-884. *)
  Definition ninto_decoder : Decoder CollectNInto T :=
    {| dec_decode := fun fuel st buf e =>
         ninto_loop fuel (ni_remaining st) (ni_inner st) (ni_items st) 0 buf e;
       dec_finish := fun st =>
         if ni_remaining st =? 0
         then (mkNInto (ni_inner st) (ni_remaining st) dflt, Ok (ni_items st))
         else (st, Err IncompleteDecoding);
       dec_req := fun st =>
         if ni_remaining st =? 0 then Ok (Finite 0) else dec_req D (ni_inner st);
       dec_idle := fun st => ni_remaining st =? 0 |}.
End Model.
Arguments CollectInto : clear implicits.
Arguments CollectNInto : clear implicits.

(** ** Specification *)

(** The collection that a list of items gives: extended with one after the other, from the default. *)
Definition collected {I T} (dflt : T) (ext : T -> I -> T) (items : list I) : T :=
  fold_left ext items dflt.

(** A decoder together with a log of the items that it has handed out: it behaves as the decoder does. *)
Definition logged {S I} (D : Decoder S I) : Decoder (S * list I) I :=
  {| dec_decode := fun fuel st buf e =>
       let '(s', r) := dec_decode D fuel (fst st) buf e in ((s', snd st), r);
     dec_finish := fun st =>
       match dec_finish D (fst st) with
       | (s', Ok i) => ((s', snd st ++ [i]), Ok i)
       | (s', r) => ((s', snd st), r)
       end;
     dec_req := fun st => dec_req D (fst st);
     dec_idle := fun st => dec_idle D (fst st) |}.

(** What is observed of a decoder, with the items seen through [g]. *)
Definition obs_through {A B} (g : A -> B) (o : dec_obs A) : dec_obs B :=
  match o with
  | ObDecode r => ObDecode r
  | ObFinish r => ObFinish (rmap g r)
  | ObReq r => ObReq r
  | ObIdle b => ObIdle b
  end.

(** Histories of a [collectn] decoder, with [set_remaining_items] at any time. *)
Inductive n_op := NOp (o : dec_op) | NSet (n : nat).
Fixpoint n_trace {S I} (D : Decoder S I) (set : S -> nat -> S) (s : S) (ops : list n_op)
    : list (dec_obs I) :=
  match ops with
  | [] => []
  | NSet n :: ops' => n_trace D set (set s n) ops'
  | NOp o :: ops' => let '(s', b) := dec_do D s o in b :: n_trace D set s' ops'
  end.
