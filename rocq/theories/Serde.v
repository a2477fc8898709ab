(** Serialisation: src/lib.rs:109-204 (scored tokens), src/processor.rs:13-18, 56-105, 135-209 (processors),
    src/tokenizer.rs:261-297 and 349-440 (tokenizers, files), on the JSON of Json.v. *)
From Verif Require Import Base F64 Utf8 Trie Model Processor Tokenizer SpecJson Base64 Json.
Set Implicit Arguments.

Definition beqs (k : bytes) (s : string) : bool := bytes_eqb k (B s).
(** A field of a serialised struct. *)
Definition field (k : string) (v : json) : bool * bytes * json := (plain (B k), B k, v).

(** ** Serialisers *)

(** src/lib.rs:109-137 [Serialize for ScoredToken]. *)
Definition ser_token (t : scored_token) : json :=
  let encoded := negb (utf8_ok (st_value t)) in
  let value := if encoded then b64_encode (st_value t) else st_value t in
  JObj (field "value" (jstr value) :: field "score" (JNum (st_score t)) ::
        (if encoded then [field "encoded" (JBool true)] else []) ++
        (if st_keep t then [field "keep" (JBool true)] else [])).

Definition form_name (f : unicode_form) : string :=
  match f with Nfc => "nfc" | Nfd => "nfd" | Nfkc => "nfkc" | Nfkd => "nfkd" end.

(** src/processor.rs:56-67, 135-160 and the untagged derive (13-14). *)
Definition ser_processor (p : processor) : json :=
  match p with
  | Crlf => JObj [field "type" (jstr (B "crlf"))]
  | Unicode f => JObj [field "type" (jstr (B "unicode")); field "form" (jstr (B (form_name f)))]
  end.

(** src/tokenizer.rs:349 [SERIALIZATION_VERSION]; 353-368 [Serialize for Tokenizer]. *)
Definition version : bytes := B "2.0".
Definition ser_tok (t : tokenizer) : json :=
  JObj [field "version" (jstr version);
        field "special_tokens" (JArr (map jstr (tk_specials t)));
        field "processors" (JArr (map ser_processor (tk_processors t)));
        field "vocab" (JArr (map ser_token (m_vocab (tk_model t))))].

(** ** Deserialisers *)

(** Types of serde: [&str] (borrowed from the document), [String], [bool], [f64], [Option<_>], [Vec<_>].
    [None] is a deserialisation error. *)
Definition de_borrowed (v : json) : option bytes := match v with JStr true s => Some s | _ => None end.
Definition de_string (v : json) : option bytes := match v with JStr _ s => Some s | _ => None end.
Definition de_bool (v : json) : option bool := match v with JBool b => Some b | _ => None end.
Definition de_f64 (v : json) : option f64 := match v with JNum x => Some x | _ => None end.
Definition de_option {A} (f : json -> option A) (v : json) : option (option A) :=
  match v with JNull => Some None | _ => option_map Some (f v) end.
Fixpoint de_all {A} (f : json -> option A) (l : list json) : option (list A) :=
  match l with
  | [] => Some []
  | v :: l' =>
      match f v with
      | None => None
      | Some a => option_map (cons a) (de_all f l')
      end
  end.
Definition de_vec {A} (f : json -> option A) (v : json) : option (list A) :=
  match v with JArr l => de_all f l | _ => None end.

(** A [visit_map]: [while let Some(key) = map.next_key()? { match key { ... } }] with a [&str] key, which must be
    borrowed; [step] is the body. *)
Fixpoint visit_map {S} (step : S -> bytes -> json -> option S) (st : S) (ms : list (bool * bytes * json)) : option S :=
  match ms with
  | [] => Some st
  | (false, _, _) :: _ => None
  | (true, k, v) :: ms' =>
      match step st k v with
      | None => None
      | Some st' => visit_map step st' ms'
      end
  end.

(** src/lib.rs:139-204 [Deserialize for ScoredToken]. *)
Record token_fields := TF { tf_value : option bytes; tf_score : option f64; tf_encoded : bool; tf_keep : bool }.
Definition token_step (st : token_fields) (k : bytes) (v : json) : option token_fields :=
  if beqs k "value" then option_map (fun x => TF x (tf_score st) (tf_encoded st) (tf_keep st)) (de_option de_string v)
  else if beqs k "score" then option_map (fun x => TF (tf_value st) x (tf_encoded st) (tf_keep st)) (de_option de_f64 v)
  else if beqs k "encoded" then option_map (fun x => TF (tf_value st) (tf_score st) x (tf_keep st)) (de_bool v)
  else if beqs k "keep" then option_map (fun x => TF (tf_value st) (tf_score st) (tf_encoded st) x) (de_bool v)
  else None.
Definition de_token (v : json) : option scored_token :=
  match v with
  | JObj ms =>
      match visit_map token_step (TF None None false false) ms with
      | None => None
      | Some st =>
          match tf_value st with
          | None => None
          | Some token =>
              match (if tf_encoded st then b64_decode token else Some token) with
              | None => None
              | Some value =>
                  match tf_score st with
                  | None => None
                  | Some score => Some (ST value score (tf_keep st))
                  end
              end
          end
      end
  | _ => None
  end.

(** src/processor.rs:69-105 [Deserialize for CrlfProcessor]. *)
Definition crlf_step (st : unit) (k : bytes) (v : json) : option unit :=
  if beqs k "type" then
    match de_string v with
    | None => None
    | Some s => if beqs s "crlf" then Some tt else None
    end
  else Some tt.
Definition de_crlf (v : json) : option processor :=
  match v with
  | JObj ms => option_map (fun _ => Crlf) (visit_map crlf_step tt ms)
  | _ => None
  end.

(** src/processor.rs:162-209 [Deserialize for UnicodeProcessor]. *)
Definition form_step (st : option bytes) (k : bytes) (v : json) : option (option bytes) :=
  if beqs k "form" then option_map Some (de_string v) else Some st.
Definition form_of (s : bytes) : option unicode_form :=
  if beqs s "nfc" then Some Nfc
  else if beqs s "nfd" then Some Nfd
  else if beqs s "nfkc" then Some Nfkc
  else if beqs s "nfkd" then Some Nfkd
  else None.
Definition de_unicode (v : json) : option processor :=
  match v with
  | JObj ms =>
      match visit_map form_step None ms with
      | Some (Some s) => option_map Unicode (form_of s)
      | _ => None
      end
  | _ => None
  end.

(** src/processor.rs:13-18: [#[serde(untagged)]] tries the variants in order. *)
Definition de_processor (v : json) : option processor :=
  match de_crlf v with
  | Some p => Some p
  | None => de_unicode v
  end.

(** src/tokenizer.rs:370-440 [Deserialize for Tokenizer]. *)
Record tok_fields := TKF {
  kf_version : option bytes;
  kf_specials : list bytes;
  kf_vocab : list scored_token;
  kf_processors : list processor
}.
Definition tok_step (st : tok_fields) (k : bytes) (v : json) : option tok_fields :=
  if beqs k "version" then
    option_map (fun x => TKF (Some x) (kf_specials st) (kf_vocab st) (kf_processors st)) (de_string v)
  else if beqs k "special_tokens" then
    option_map (fun x => TKF (kf_version st) x (kf_vocab st) (kf_processors st)) (de_vec de_borrowed v)
  else if beqs k "vocab" then
    option_map (fun x => TKF (kf_version st) (kf_specials st) x (kf_processors st)) (de_vec de_token v)
  else if beqs k "processors" then
    option_map (fun x => TKF (kf_version st) (kf_specials st) (kf_vocab st) x) (de_vec de_processor v)
  else None.
Definition de_tok (v : json) : option tokenizer :=
  match v with
  | JObj ms =>
      match visit_map tok_step (TKF None [] [] []) ms with
      | None => None
      | Some st =>
          match kf_version st with
          | None => None
          | Some ver =>
              if bytes_eqb ver version then Some (tok_new (model_from (kf_vocab st)) (kf_processors st) (kf_specials st))
              else None
          end
      end
  | _ => None
  end.

Section Files.
  Variable fmt_num : f64 -> bytes.
  Variable num_val : bytes -> option f64.

  (** src/tokenizer.rs:293-297 [to_string]. *)
  Definition to_string (t : tokenizer) : bytes := write fmt_num false 0 (ser_tok t).

  (** src/tokenizer.rs:285-291 [from_str]. *)
  Definition from_str (s : bytes) : res tokenizer :=
    match parse_document num_val s with
    | None => Err SerdeJSON
    | Some v =>
        match de_tok v with
        | None => Err SerdeJSON
        | Some t => Ok t
        end
    end.

  (** src/tokenizer.rs:261-265 [save]: the bytes handed to [std::fs::write]. *)
  Definition save_contents (t : tokenizer) : bytes := write fmt_num true 0 (ser_tok t).

  (** src/tokenizer.rs:279-282 [from_file], given what the path leads to ([None]: it can not be read).
      [read_to_string] fails on invalid UTF-8. *)
  Definition from_file (file : option bytes) : res tokenizer :=
    match file with
    | None => Err IO
    | Some contents => if utf8_ok contents then from_str contents else Err IO
    end.

  (** [std::fs::write] opens the file with truncation, then writes the bytes in order.  These are the states of the
      file that a crash during or after [save] can leave: before the call, or a prefix of the new contents. *)
  Inductive after_crash (old : option bytes) (t : tokenizer) : option bytes -> Prop :=
  | crash_before : after_crash old t old
  | crash_at k : after_crash old t (Some (firstn k (save_contents t))).
End Files.
