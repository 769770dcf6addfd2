(** * DisplayModel: the texts of the error enumerations

    [#[derive(Error)]] of thiserror writes [Display] from the [#[error("...")]] attribute: the
    literal pieces of the text with the fields between them, each printed by its own [Display].
    A [usize] prints in decimal.  The texts of ark-serialize's [SerializationError] are a
    parameter [ser], and so is the text [point] of the point that [EvaluationsCheckError]
    carries in Rust. *)

From Coq Require Import NArith Strings.Byte Strings.String.
From mathcomp Require Import all_ssreflect.
From Verif Require Import Prelude Errors.

Set Implicit Arguments.
Unset Strict Implicit.
Unset Printing Implicit Defensive.

Definition text := seq byte.
Definition lit (s : string) : text := list_byte_of_string s.

(** [Display] of [usize] (core::fmt): the decimal digits, last one first found.  [fuel] bounds
    the number of digits. *)
Definition digit (d : nat) : byte := nth x30 (lit "0123456789") d.
Fixpoint digits (fuel n : nat) : text :=
  if fuel is k.+1 then
    if n < 10 then [:: digit n] else rcons (digits k (n %/ 10)) (digit (n %% 10))
  else [::].
Definition decimal (n : nat) : text := digits n.+1 n.

(** [Display for VerifyProofEquation], src/signature/utils/errors.rs:15-25. *)
Definition display_equation (e : verify_proof_equation) : text :=
  lit match e with
      | Eq1 => "Eq1"
      | Eq2 => "Eq2"
      | Eq3 => "Eq3"
      | EqAllProbabilistic => "EqAllProbabilistic"
      | EqProbabilistic => "EqProbabilistic"
      end.

Section Display.
Variable ser : serialization_error -> text.
Variable point : text.

(** [Display for NIZKError], src/nizk/utils/errors.rs:6-18. *)
Definition display_nizk (e : nizk_error) : text :=
  match e with
  | NizkSRSSetupError => lit "Could not generate SRS"
  | DLKParseError => lit "Failed parsing DLK proof"
  | DLKVerify => lit "Failed verifying DLK proof"
  | DLEQVerify => lit "Failed verifying DLEQ proof"
  | NizkSerializationError s => lit "SerializationError: " ++ ser s
  end.

(** [Display for SignatureError], src/signature/utils/errors.rs:27-45. *)
Definition display_signature (e : signature_error) : text :=
  match e with
  | SigSRSSetupError => lit "Could not generate SRS"
  | AlgebraicVerifyProof q => lit "Failed verifying equation `" ++ display_equation q ++ lit "`"
  | BLSVerify => lit "Failed verifying BLS equation"
  | SchnorrVerify => lit "Failed verifying Schnorr equation"
  | SignatureDoesNotHaveInverse => lit "Signature doesn't have an inverse"
  | SRSDifferent => lit "SRS is different"
  | SigSerializationError s => lit "SerializationError: " ++ ser s
  | BatchVerification a b c =>
      lit "Different lengths in batch verification: " ++ decimal a ++ lit ", " ++ decimal b
      ++ lit ", " ++ decimal c
  end.

(** [Display for PVSSError], src/modified_scrape/errors.rs:8-77. *)
Definition display_pvss (e : pvss_error) : text :=
  match e with
  | InsufficientEvaluationsError => lit "Insufficient evaluations"
  | DifferentPointsEvalsError => lit "Different number of points and evaluations"
  | DecompGenerationError => lit "Could not generate decomposition proof"
  | InvalidParticipantId i => lit "Invalid participant ID: " ++ decimal i
  | MismatchedCommitsEncryptionsParticipantsError a b c =>
      lit "Mismatch between provided encryptions (" ++ decimal a ++ lit " given), commitments ("
      ++ decimal b ++ lit " given), and participants (" ++ decimal c ++ lit " given)"
  | DualCodeError => lit "Degree check failed. Dual code condition does not hold"
  | GSCheckError => lit "gs check failed"
  | EmptySharesVectorError => lit "Empty shares vector provided"
  | InsufficientIdsError => lit "Insufficient elements in the identities vector"
  | InsufficientCommitsInShareError a b =>
      lit "Insufficient commitments in PVSS share. Found: " ++ decimal a ++ lit ", Expected: "
      ++ decimal b
  | InsufficientEncryptionsInShareError a b =>
      lit "Insufficient encryptions in PVSS share. Found: " ++ decimal a ++ lit ", Expected: "
      ++ decimal b
  | EmptyEncryptionsVectorError => lit "Share's encryptions vector is empty"
  | MismatchedCommitmentsError a b =>
      lit "Mismatched commitment vector lengths. First has: " ++ decimal a
      ++ lit ", Second has: " ++ decimal b
  | MismatchedEncryptionsError a b =>
      lit "Mismatched encryption vector lengths. First has: " ++ decimal a
      ++ lit ", Second has: " ++ decimal b
  | MismatchedCommitmentsEncryptionsError a b =>
      lit "Mismatched commitment and encryption vector lengths within share. First has: "
      ++ decimal a ++ lit ", Second has: " ++ decimal b
  | TranscriptDifferentConfig a b c d =>
      lit "Transcripts have different degree or number of participants: self.degree="
      ++ decimal a ++ lit ", other.degree=" ++ decimal b ++ lit ", self.num_participants="
      ++ decimal c ++ lit ", self.num_participants=" ++ decimal d
  | TranscriptDifferentCommitments => lit "Transcripts have different commitments"
  | DecompProofVerificationError => lit "Decomposition proof does not verify"
  | InsufficientDecryptionsError a b =>
      lit "Insufficient number of decryptions provided for reconstruction Got: " ++ decimal a
      ++ lit ", Expected: >= " ++ decimal b
  | LengthMismatchError => lit "Length mismatch"
  | EncryptionCorrectnessError => lit "Correctness of encryption check failed"
  | DecompositionInTranscriptError => lit "Decomposition in transcript is incorrect"
  | AggregationReconstructionMismatchError =>
      lit "Aggregated gs from transcript does not match reconstruction"
  | EdDSAInvalidSignatureError => lit "EdDSA signature is invalid"
  | InvalidSignedProofError => lit "Signed proof is invalid"
  | NIZKProofDoesNotVerifyError => lit "NIZK proof does not verify"
  | RatioIncorrect => lit "Ratio incorrect"
  | EvaluationsCheckError => lit "Evaluations are wrong: product = " ++ point
  | EvaluationDomainError => lit "Could not generate evaluation domain"
  | DifferentSRS => lit "Config, dealer and nodes had different SRSes"
  | PvssSignatureError e => lit "Signature error: " ++ display_signature e
  | PvssSerializationError s => lit "Serialization error: " ++ ser s
  end.

End Display.
