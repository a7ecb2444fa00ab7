(** Model of the per-CPU value codec: marshalers.go:45-215 and sysenc.Marshal/Unmarshal's length checks.

    A Go value of the slice's element type is an element of [V]; [enc] is what sysenc.Marshal turns it into before
    the length check (None: an error), [dec] is sysenc.Unmarshal into a fresh element (None: an error). *)
From Coq Require Import ZArith List Lia Bool.
From Verif.Base Require Import GoInt.
From Verif.Internal Require Import Math.
Import ListNotations.

Inductive merr := NotMarshalable | WrongSize | TooManyCPUs | WrongLength | WrongBuffer | NotUnmarshalable.

(** internal.Align(elemLength, 8) on an int *)
Definition go_int64 : ity := mkIty 64 true.
Definition stride (elemLength : nat) : nat := Z.to_nat (Align go_int64 (Z.of_nat elemLength) 8).

Section Codec.
  Variable V : Type.
  Variable enc : V -> option (list Z).
  Variable dec : list Z -> option V.

  (** internal/sysenc/marshal.go:21-63 Marshal *)
  Definition Marshal (v : V) (size : nat) : res merr (list Z) :=
    match enc v with
    | None => Err NotMarshalable
    | Some b => if (length b =? size)%nat then Ok b else Err WrongSize
    end.

  (** marshalers.go:45-78 appendPerCPUSlice, the loop over the elements *)
  Fixpoint appendElems (buf : list Z) (slice : list V) (elemLength aligned : nat) : res merr (list Z) :=
    match slice with
    | [] => Ok buf
    | v :: slice' =>
        match Marshal v elemLength with
        | Err e => Err e
        | Ok b => appendElems ((buf ++ b) ++ repeat 0%Z (aligned - elemLength)) slice' elemLength aligned
        end
    end.
  (** marshalers.go:49-78 appendPerCPUSlice *)
  Definition appendPerCPUSlice (buf : list Z) (slice : list V) (possibleCPUs elemLength aligned : nat) : res merr (list Z) :=
    if (possibleCPUs <? length slice)%nat then Err TooManyCPUs
    else match appendElems buf slice elemLength aligned with
         | Err e => Err e
         | Ok buf => Ok (buf ++ repeat 0%Z ((possibleCPUs - length slice) * aligned))
         end.
  (** marshalers.go:84-98 marshalPerCPUValue *)
  Definition marshalPerCPUValue (possibleCPUs : nat) (slice : list V) (elemLength : nat) : res merr (list Z) :=
    appendPerCPUSlice [] slice possibleCPUs elemLength (stride elemLength).
  (** marshalers.go:102-128 marshalBatchPerCPUValue *)
  Fixpoint marshalBatches (buf : list Z) (batchLen : nat) (slice : list V) (possibleCPUs elemLength : nat) : res merr (list Z) :=
    match batchLen with
    | O => Ok buf
    | S b =>
        match appendPerCPUSlice buf (firstn possibleCPUs slice) possibleCPUs elemLength (stride elemLength) with
        | Err e => Err e
        | Ok buf => marshalBatches buf b (skipn possibleCPUs slice) possibleCPUs elemLength
        end
    end.
  Definition marshalBatchPerCPUValue (possibleCPUs : nat) (slice : list V) (batchLen elemLength : nat) : res merr (list Z) :=
    if negb (length slice =? batchLen * possibleCPUs)%nat then Err WrongLength
    else marshalBatches [] batchLen slice possibleCPUs elemLength.

  (** marshalers.go:134-177 unmarshalPerCPUValue: [slice] is only used for its length, its elements are
      overwritten.  [None] is a panic (slice bounds out of range). *)
  Fixpoint unmarshalElems (n elemLength : nat) (buf : list Z) : option (res merr (list V)) :=
    match n with
    | O => Some (Ok [])
    | S n' =>
        if (length buf <? elemLength)%nat then None
        else match dec (firstn elemLength buf) with
        | None => Some (Err NotUnmarshalable)
        | Some v =>
            if (length buf <? stride elemLength)%nat then None
            else match unmarshalElems n' elemLength (skipn (stride elemLength) buf) with
                 | None => None
                 | Some (Err e) => Some (Err e)
                 | Some (Ok vs) => Some (Ok (v :: vs))
                 end
        end
    end.
  Definition unmarshalPerCPUValue (possibleCPUs sliceLen elemLength : nat) (buf : list Z) : option (res merr (list V)) :=
    if negb (sliceLen =? possibleCPUs)%nat then Some (Err WrongLength)
    else unmarshalElems possibleCPUs elemLength buf.
  (** marshalers.go:183-215 unmarshalBatchPerCPUValue *)
  Fixpoint unmarshalBatches (possibleCPUs batchLen elemLength : nat) (buf : list Z) : option (res merr (list V)) :=
    match batchLen with
    | O => Some (Ok [])
    | S b =>
        let full := (possibleCPUs * stride elemLength)%nat in
        if (length buf <? full)%nat then None
        else match unmarshalPerCPUValue possibleCPUs possibleCPUs elemLength (firstn full buf) with
             | None => None
             | Some (Err e) => Some (Err e)
             | Some (Ok vs) =>
                 match unmarshalBatches possibleCPUs b elemLength (skipn full buf) with
                 | None => None
                 | Some (Err e) => Some (Err e)
                 | Some (Ok ws) => Some (Ok (vs ++ ws))
                 end
             end
    end.
  Definition unmarshalBatchPerCPUValue (possibleCPUs sliceLen batchLen elemLength : nat) (buf : list Z) : option (res merr (list V)) :=
    if negb (sliceLen =? batchLen * possibleCPUs)%nat then Some (Err WrongLength)
    else if negb (length buf =? batchLen * (possibleCPUs * stride elemLength))%nat then Some (Err WrongBuffer)
    else unmarshalBatches possibleCPUs batchLen elemLength buf.
End Codec.
