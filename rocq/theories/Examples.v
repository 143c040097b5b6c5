(** * Concrete codecs, used to show that the hypotheses of the theorems can be met. *)
From Coq Require Import Lia ZifyBool ZifyNat ZifyN.
From Verif Require Export Sound Session.
Set Implicit Arguments.

(** A tag byte and a value with a 16 bit length prefix. *)
Definition ex_tlv : codec (N * list byte) :=
  CTuple (PTwo (CU NU8) (CPrefixed NU16be len CRest)).
Definition ex_tlv_item : N * list byte := (7%N, [xaa; xbb]).
Definition ex_tlv_bytes : list byte := [x07; x00; x02; xaa; xbb].

(** A three-tuple: a 24 bit number, a signed number, a counted sequence of the above. *)
Definition ex_msg : codec (N * Z * list (N * list byte)) :=
  CTuple (PSnoc (PTwo (CU NU24le) (CS NI16be)) (CCounted NU8 ex_tlv)).
Definition ex_msg_item : N * Z * list (N * list byte) :=
  (513%N, (-2)%Z, [(7%N, [xaa; xbb]); (8%N, [])]).
Definition ex_msg_bytes : list byte :=
  [x01; x02; x00; xff; xfe; x02; x07; x00; x02; xaa; xbb; x08; x00; x00].

(** All the records of a stream. *)
Definition ex_file : codec (list (N * list byte)) := CSeq ex_tlv.
Definition ex_file_bytes : list byte := [x07; x00; x02; xaa; xbb; x08; x00; x00].
Definition ex_file_items : list (N * list byte) := [(7%N, [xaa; xbb]); (8%N, [])].

Lemma ex_tlv_wf : wf ex_tlv.
Proof. cbn; auto. Qed.
Lemma ex_tlv_wire1 : wire ex_tlv ex_tlv_bytes ex_tlv_item.
Proof.
  split; [discriminate|]. exists [x07], [x00; x02; xaa; xbb]. split; auto. split; [split; reflexivity|].
  split; [discriminate|]. exists [x00; x02], [xaa; xbb]. repeat split; auto; discriminate.
Qed.
Lemma ex_tlv_wire2 : wire ex_tlv [x08; x00; x00] (8%N, []).
Proof.
  split; [discriminate|]. exists [x08], [x00; x00]. split; auto. split; [split; reflexivity|].
  split; [discriminate|]. exists [x00; x00], []. repeat split; auto; discriminate.
Qed.
Lemma ex_tlv_reads1 : reads ex_tlv ex_tlv_bytes ex_tlv_item.
Proof.
  split; [discriminate|]. exists [x07], [x00; x02; xaa; xbb]. split; auto. split; [split; reflexivity|].
  split; [discriminate|]. exists [x00; x02], [xaa; xbb]. repeat split; auto; discriminate.
Qed.
Lemma ex_tlv_reads2 : reads ex_tlv [x08; x00; x00] (8%N, []).
Proof.
  split; [discriminate|]. exists [x08], [x00; x00]. split; auto. split; [split; reflexivity|].
  split; [discriminate|]. exists [x00; x00], []. repeat split; auto; discriminate.
Qed.
Lemma ex_msg_wf : wf ex_msg.
Proof. cbn; repeat split; auto. Qed.
Lemma ex_msg_wire : wire ex_msg ex_msg_bytes ex_msg_item.
Proof.
  split; [discriminate|]. exists [x01; x02; x00; xff; xfe], [x02; x07; x00; x02; xaa; xbb; x08; x00; x00].
  split; auto. split.
  - split; [discriminate|]. exists [x01; x02; x00], [xff; xfe]. repeat split; auto. cbn. lia.
  - split; [discriminate|]. exists [x02], [x07; x00; x02; xaa; xbb; x08; x00; x00].
    split; auto. split; [|split; reflexivity].
    exists [ex_tlv_bytes; [x08; x00; x00]]. split; auto.
    constructor; [apply ex_tlv_wire1|]. constructor; [apply ex_tlv_wire2|constructor].
Qed.
Lemma ex_msg_reads : reads ex_msg ex_msg_bytes ex_msg_item.
Proof.
  split; [discriminate|]. exists [x01; x02; x00; xff; xfe], [x02; x07; x00; x02; xaa; xbb; x08; x00; x00].
  split; auto. split.
  - split; [discriminate|]. exists [x01; x02; x00], [xff; xfe]. repeat split; auto. cbn. lia.
  - split; [discriminate|]. exists [x02], [x07; x00; x02; xaa; xbb; x08; x00; x00].
    split; auto. split; [split; reflexivity|].
    exists [ex_tlv_bytes; [x08; x00; x00]]. split; auto.
    constructor; [apply ex_tlv_reads1|]. constructor; [apply ex_tlv_reads2|constructor].
Qed.
Lemma ex_file_wf : wf ex_file.
Proof. cbn; repeat split; auto. exists ex_tlv_bytes, ex_tlv_item. apply ex_tlv_reads1. Qed.
Lemma ex_file_wire : wire ex_file ex_file_bytes ex_file_items.
Proof.
  split; [discriminate|]. exists [ex_tlv_bytes; [x08; x00; x00]]. split; auto.
  constructor; [apply ex_tlv_wire1|]. constructor; [apply ex_tlv_wire2|constructor].
Qed.
Lemma ex_file_reads : reads ex_file ex_file_bytes ex_file_items.
Proof.
  split; [discriminate|]. exists [ex_tlv_bytes; [x08; x00; x00]]. split; auto.
  constructor; [apply ex_tlv_reads1|]. constructor; [apply ex_tlv_reads2|constructor].
Qed.
Lemma ex_tlv_usable : usable ex_tlv.
Proof. cbn; auto. Qed.
Lemma ex_msg_usable : usable ex_msg.
Proof. cbn; auto 8. Qed.
Lemma ex_file_usable : usable ex_file.
Proof. cbn; auto. Qed.
Lemma ex_msg_faithful : faithful ex_msg.
Proof. cbn; auto 8. Qed.

(** Running a list of calls, to exhibit histories by computation. *)
Fixpoint run_ops {S I} (D : Decoder S I) (s : S) (acc : list byte) (items : list (list byte * I))
    (ops : list op) : option (S * list byte * list (list byte * I)) :=
  match ops with
  | [] => Some (s, acc, items)
  | ODecode fuel buf e :: ops' =>
      if dec_idle D s then None
      else match dec_decode D fuel s buf e with
           | (s', Ok n) => run_ops D s' (acc ++ firstn n buf) items ops'
           | _ => None
           end
  | OFinish :: ops' =>
      match dec_finish D s with
      | (s', Ok i) => run_ops D s' [] (items ++ [(acc, i)]) ops'
      | _ => None
      end
  end.
Lemma run_ops_history : forall S I (D : Decoder S I) ops s0 ops0 s acc items s' acc' items',
  history D s0 ops0 s acc items -> run_ops D s acc items ops = Some (s', acc', items') ->
  history D s0 (ops0 ++ ops) s' acc' items'.
Proof.
  induction ops as [|[fuel buf e|] ops IH]; intros s0 ops0 s acc items s' acc' items' H R; cbn in R.
  - injection R as <- <- <-. now rewrite app_nil_r.
  - destruct (dec_idle D s) eqn:id; [discriminate|].
    destruct (dec_decode D fuel s buf e) as [s1 [n|k| |]] eqn:X; try discriminate.
    change (ODecode fuel buf e :: ops) with ([ODecode fuel buf e] ++ ops). rewrite app_assoc.
    eapply IH; [|exact R]. eapply hist_decode; eauto.
  - destruct (dec_finish D s) as [s1 [i|k| |]] eqn:X; try discriminate.
    change (OFinish :: ops) with ([OFinish] ++ ops). rewrite app_assoc.
    eapply IH; [|exact R]. eapply hist_finish; eauto.
Qed.
Definition ex_msg_ops : list op :=
  [ODecode 99 (firstn 9 ex_msg_bytes) Unknown; ODecode 99 (skipn 9 ex_msg_bytes) (Finite 0); OFinish;
   ODecode 99 ex_msg_bytes Unknown; OFinish].
Lemma ex_msg_history :
  exists s, history (decoder ex_msg) (dec_fresh ex_msg) ex_msg_ops s []
     [(ex_msg_bytes, ex_msg_item); (ex_msg_bytes, ex_msg_item)].
Proof.
  destruct (run_ops (decoder ex_msg) (dec_fresh ex_msg) [] [] ex_msg_ops) as [[[s acc] items]|] eqn:R;
    [|vm_compute in R; discriminate].
  exists s. change ex_msg_ops with ([] ++ ex_msg_ops). eapply run_ops_history; [constructor|].
  rewrite R. vm_compute in R. injection R as _ <- <-. reflexivity.
Qed.
