(** Serialized proofs: the code generated by [#[derive(CanonicalSerialize, CanonicalDeserialize)]]
    (ark-serialize 0.4) for the structs of /repo that derive it.  A derived implementation treats
    the fields in order; tuples likewise; [Vec] is a little-endian u64 length and the elements;
    [PhantomData] and unit structs are empty.  Encodings of field and group elements are a
    parameter ([codec]); reading leaves the unread rest of the input. *)
Require Import List Arith Bool NArith.
Import ListNotations.
Require Import Verif.Outcome Verif.Algebra Verif.Rust Verif.Commitments Verif.Gipa Verif.Tipa Verif.Ssm.

(** [serialize_with_mode] and [deserialize_with_mode] of a type ([None] is a SerializationError:
    input too short or invalid element). *)
Record codec (A : Type) : Type := mk_codec {
  enc : A -> bytes;
  dec : bytes -> option (A * bytes)
}.
Arguments mk_codec {A}.
Arguments enc {A}.
Arguments dec {A}.

Definition dec_map {A B} (f : A -> B) (x : option (A * bytes)) : option (B * bytes) :=
  match x with None => None | Some (a, r) => Some (f a, r) end.

(** a struct with one representation in terms of another type *)
Definition codec_iso {A B} (f : A -> B) (g : B -> A) (c : codec A) : codec B :=
  mk_codec (fun b => enc c (g b)) (fun i => dec_map f (dec c i)).

(** unit struct: dh_commitments/src/identity/mod.rs 17-18 [HomomorphicPlaceholderValue] *)
Definition codec_unit : codec unit := mk_codec (fun _ => []) (fun i => Some (tt, i)).

(** tuples and consecutive fields *)
Definition codec_pair {A B} (ca : codec A) (cb : codec B) : codec (A * B) :=
  mk_codec (fun p => enc ca (fst p) ++ enc cb (snd p))
    (fun i => match dec ca i with
              | None => None
              | Some (a, i) => dec_map (fun b => (a, b)) (dec cb i)
              end).

(** u64, little endian *)
Definition dec_u64 (i : bytes) : option (N * bytes) :=
  if length i <? 8 then None else Some (from_be_bytes (rev (firstn 8 i)), skipn 8 i).

(** [Vec]: [for _ in 0..len { values.push(T::deserialize(..)?) }] *)
Fixpoint dec_n {A} (c : codec A) (n : nat) (i : bytes) : option (list A * bytes) :=
  match n with
  | O => Some ([], i)
  | S n => match dec c i with
           | None => None
           | Some (a, i) => dec_map (cons a) (dec_n c n i)
           end
  end.
Definition codec_vec {A} (c : codec A) : codec (list A) :=
  mk_codec (ser_list (enc c))
    (fun i => match dec_u64 i with
              | None => None
              | Some (len, i) => dec_n c (N.to_nat len) i
              end).

(** dh_commitments/src/identity/mod.rs 32-35 [IdentityOutput]: a newtype of Vec *)
Definition codec_identity_output {K} {T : module K} (c : codec T) : codec (identity_output T) := codec_vec c.

Section Wire.
  Context {K : field} {MA MB : module K} {OA OB OT : carrier K}.
  Variables (cMA : codec MA) (cMB : codec MB) (cOA : codec OA) (cOB : codec OB) (cOT : codec OT).

  Definition codec_com3 : codec (com3 OA OB OT) := codec_pair (codec_pair cOA cOB) cOT.

  (** ip_proofs/src/gipa.rs 24-51 [GIPAProof]: [r_commitment_steps], [r_base], a PhantomData *)
  Definition codec_gipa : codec (gipa_proof MA MB OA OB OT) :=
    codec_iso (fun p => mk_gipa_proof (fst p) (snd p)) (fun p => (gp_steps p, gp_base p))
      (codec_pair (codec_vec (codec_pair codec_com3 codec_com3)) (codec_pair cMA cMB)).
End Wire.

(** ip_proofs/src/tipa/mod.rs 41-65 [TIPAProof]: [gipa_proof], [final_ck], [final_ck_proof], a PhantomData *)
Definition codec_tipa {P : pairing} {MA MB : module (pK P)} {OA OB OT : carrier (pK P)}
    (cG1 : codec (pG1 P)) (cG2 : codec (pG2 P)) (cMA : codec MA) (cMB : codec MB)
    (cOA : codec OA) (cOB : codec OB) (cOT : codec OT) : codec (tipa_proof P MA MB OA OB OT) :=
  codec_iso (fun p => mk_tipa_proof (fst (fst p)) (snd (fst p)) (snd p))
    (fun p => (tp_gipa p, tp_final_ck p, tp_final_ck_proof p))
    (codec_pair (codec_pair (codec_gipa cMA cMB cOA cOB cOT) (codec_pair cG2 cG1)) (codec_pair cG2 cG1)).

(** ip_proofs/src/tipa/structured_scalar_message.rs 138-156 [TIPAWithSSMProof] *)
Definition codec_tssm {P : pairing} {MA : module (pK P)} {OA OT : carrier (pK P)}
    (cF : codec (pK P)) (cG2 : codec (pG2 P)) (cMA : codec MA) (cOA : codec OA) (cOT : codec OT)
    : codec (tssm_proof P MA OA OT) :=
  codec_iso (fun p => mk_tssm_proof (fst (fst p)) (snd (fst p)) (snd p))
    (fun p => (ts_gipa p, ts_final_ck p, ts_final_ck_proof p))
    (codec_pair (codec_pair
      (codec_gipa (MA := MA) (MB := fmod (pK P)) (OA := OA) (OB := mod_carrier (fmod (pK P))) (OT := OT) cMA cF cOA cF cOT)
      cG2) cG2).
