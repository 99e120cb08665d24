(** The names of the classes of fanpy, and examples of components. *)
From Coq Require Import Ascii String Arith Bool List.
From Verif Require Import Py SaveNames.
Import ListNotations.
Local Open Scope string_scope.
Definition s_ (x : string) : str := list_ascii_of_string x.
(** grep -rhoE "^class [A-Za-z_0-9]+" fanpy *)
Definition class_names : list str := map s_ [
  "AP1roG"; "AP1roGSDGeneralized"; "AP1roGSDSpin"; "APG"; "APG1roD"; "APG1roSD"; "APIG"; "APr2G"
  ; "APset1roGD"; "APset1roGSD"; "Alias"; "AntisymmeterizedProductTetrets"; "BaseCC"; "BaseCompositeOneWavefunction"; "BaseGeminal"; "BaseGeneralizedHamiltonian"
  ; "BaseHamiltonian"; "BaseQuasiparticle"; "BaseSchrodinger"; "BaseUnrestrictedHamiltonian"; "BaseWavefunction"; "BasicAPsetG"; "CCS"; "CCSDQsen0"
  ; "CCSDTQsen0"; "CCSDTsen2Qsen0"; "CCSDsen0"; "CIPairs"; "CISD"; "CIWavefunction"; "ComponentParameterIndices"; "CreationCC"
  ; "DOCI"; "DataFrameCC"; "DataFrameCI"; "DataFrameFanpy"; "DataFrameGeminal"; "DeterminantRatio"; "EmbeddedCC"; "EmbeddedWavefunction"
  ; "EnergyConstraint"; "EnergyOneSideProjection"; "EnergyTwoSideProjection"; "EnergyVariational"; "FANPT"; "FANPTConstantTerms"; "FANPTContainer"; "FANPTContainerEFree"
  ; "FANPTContainerEParam"; "FANPTUpdater"; "FCI"; "FixedEmbeddedWavefunction"; "GeneralizedCC"; "GeneralizedMolecularHamiltonian"; "JacobiWavefunction"; "LeastSquaresEquations"
  ; "LinearCombinationWavefunction"; "LocalEnergy"; "MatrixProductState"; "NonorthWavefunction"; "NormConstraint"; "OrthogonalizationError"; "PCCD"; "PYCI"
  ; "PYSCF"; "ParamContainer"; "ProductWavefunction"; "ProjectedSchrodinger"; "ProjectedSchrodingerFanCI"; "ProjectedSchrodingerLegacyFanCI"; "ProjectedSchrodingerPyCI"; "RankTwoApprox"
  ; "RestrictedBoltzmannMachine"; "RestrictedMolecularHamiltonian"; "SeniorityCC"; "SeniorityZeroHamiltonian"; "StandardCC"; "UnrestrictedMolecularHamiltonian"; "hCI"].
(** the condition of the theorem, decided *)
Fixpoint strip (b a : str) : option str :=
  match b, a with
  | [], _ => Some a
  | x :: b', y :: a' => if ascii_dec x y then strip b' a' else None
  | _, _ => None
  end.
Definition is_digit (c : ascii) : bool := (Nat.leb 48 (nat_of_ascii c) && Nat.leb (nat_of_ascii c) 57)%bool.
Definition follows (a b : str) : bool :=
  match strip b a with Some (c :: q) => forallb is_digit (c :: q) | _ => false end.
Definition tameb (n : str) : bool :=
  forallb (fun c => negb (if ascii_dec c "." then true else if ascii_dec c "/" then true else if ascii_dec c "_" then true else false)) n.
Definition siblingsb (l : list str) : bool := (forallb tameb l && forallb (fun a => forallb (fun b => negb (follows a b)) l) l)%bool.
