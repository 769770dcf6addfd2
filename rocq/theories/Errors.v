(** * Errors: the error enumerations of /repo. *)

From mathcomp Require Import all_ssreflect.

(** [SerializationError] (ark-serialize), the cases a reader can raise. *)
Inductive serialization_error : Type :=
| NotEnoughSpace | InvalidData | UnexpectedFlags | IoError.

(** [NIZKError], src/nizk/utils/errors.rs:6-18. *)
Inductive nizk_error : Type :=
| NizkSRSSetupError
| DLKParseError
| DLKVerify
| DLEQVerify
| NizkSerializationError of serialization_error.

(** [VerifyProofEquation], src/signature/utils/errors.rs:5-12. *)
Inductive verify_proof_equation : Type :=
| Eq1 | Eq2 | Eq3 | EqAllProbabilistic | EqProbabilistic.

(** [SignatureError], src/signature/utils/errors.rs:27-45. *)
Inductive signature_error : Type :=
| SigSRSSetupError
| AlgebraicVerifyProof of verify_proof_equation
| BLSVerify
| SchnorrVerify
| SignatureDoesNotHaveInverse
| SRSDifferent
| SigSerializationError of serialization_error
| BatchVerification of nat & nat & nat.

(** [PVSSError], src/modified_scrape/errors.rs:8-77.  [EvaluationsCheckError] carries a
    point in Rust; it is never constructed in /repo and loses its payload here. *)
Inductive pvss_error : Type :=
| InsufficientEvaluationsError
| DifferentPointsEvalsError
| DecompGenerationError
| InvalidParticipantId of nat
| MismatchedCommitsEncryptionsParticipantsError of nat & nat & nat
| DualCodeError
| GSCheckError
| EmptySharesVectorError
| InsufficientIdsError
| InsufficientCommitsInShareError of nat & nat
| InsufficientEncryptionsInShareError of nat & nat
| EmptyEncryptionsVectorError
| MismatchedCommitmentsError of nat & nat
| MismatchedEncryptionsError of nat & nat
| MismatchedCommitmentsEncryptionsError of nat & nat
| TranscriptDifferentConfig of nat & nat & nat & nat
| TranscriptDifferentCommitments
| DecompProofVerificationError
| InsufficientDecryptionsError of nat & nat
| LengthMismatchError
| EncryptionCorrectnessError
| DecompositionInTranscriptError
| AggregationReconstructionMismatchError
| EdDSAInvalidSignatureError
| InvalidSignedProofError
| NIZKProofDoesNotVerifyError
| RatioIncorrect
| EvaluationsCheckError
| EvaluationDomainError
| DifferentSRS
| PvssSignatureError of signature_error
| PvssSerializationError of serialization_error.
