(** src/processor.rs, without its serialisation (Serde.v). *)
From Verif Require Import Base.
Set Implicit Arguments.

(** src/processor.rs:107-112 [enum UnicodeProcessor]. *)
Inductive unicode_form := Nfc | Nfd | Nfkc | Nfkd.

(** src/processor.rs:13-18 [enum ProcessorWrapper]; 37-38 [struct CrlfProcessor]. *)
Inductive processor := Crlf | Unicode (f : unicode_form).

(** [str::replace(from, to)] of the standard library for a non-empty [from]:
    the non-overlapping matches of [from], found from left to right, are replaced. *)
Fixpoint replace_fuel (fuel : nat) (s from to : bytes) : bytes :=
  match fuel with
  | 0 => []
  | S fuel' =>
      match s with
      | [] => []
      | b :: s' =>
          if starts_with s from then to ++ replace_fuel fuel' (skipn (length from) s) from to
          else b :: replace_fuel fuel' s' from to
      end
  end.
Definition str_replace (s from to : bytes) : bytes := replace_fuel (S (length s)) s from to.

Section Processors.
  (** The four normalisation forms ([s.nfc().collect()] etc. of the
      unicode-normalization crate) are an argument. *)
  Variable normalize : unicode_form -> bytes -> bytes.

  (** src/processor.rs:46-54 and 20-34, 120-133: [preprocess]. *)
  Definition preprocess (p : processor) (s : bytes) : bytes :=
    match p with
    | Crlf => str_replace s [x0d; x0a] [x0a]
    | Unicode f => normalize f s
    end.

  (** src/processor.rs:51-53, 130-132: [postprocess]. *)
  Definition postprocess (p : processor) (s : bytes) : bytes := s.

  (** src/tokenizer.rs:79-82 and 93-96: [processors.iter().fold(s, |s, p| p.preprocess(&s))]. *)
  Definition preprocess_all (ps : list processor) (s : bytes) : bytes :=
    fold_left (fun s p => preprocess p s) ps s.

  (** src/tokenizer.rs:140-145 and 163-166: [processors.iter().rev().fold(s, |s, p| p.postprocess(&s))]. *)
  Definition postprocess_all (ps : list processor) (s : bytes) : bytes :=
    fold_left (fun s p => postprocess p s) (rev ps) s.
End Processors.
