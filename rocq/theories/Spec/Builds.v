(** * Specification vocabulary for C49: the same program under another build profile *)
From Verif.Model Require Import Base Group Transcript.

(** the backend, RNG and hash functions of [E], compiled with profile [b] *)
Definition built (E : Env) (b : Build) : Env :=
  {| env_group := env_group E; Rng := Rng E; generate_scalar := @generate_scalar E;
     fill_bytes := @fill_bytes E; oracle := @oracle E; sha256 := @sha256 E;
     len_estimate := @len_estimate E; env_build := b |}.

(** whatever the first call returns, the second one returns as well *)
Definition keeps {A : Type} (m m' : outcome A) : Prop := forall x, m = Ret x -> m' = Ret x.
