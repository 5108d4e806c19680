-Q theories Verif
theories/Model/Base.v
theories/Model/Group.v
theories/Model/Transcript.v
theories/Model/Keys.v
theories/Model/Encryption.v
theories/Model/LogEquality.v
theories/Model/Possession.v
theories/Model/Ring.v
theories/Model/Range.v
theories/Model/Commitment.v
theories/Model/Mul.v
theories/Model/Sharing.v
theories/Model/Dkg.v
theories/Model/Choice.v
theories/Model/Quadratic.v
theories/Model/Serde.v
theories/Model/Debug.v
theories/Proofs/Algebra.v
theories/Spec/Sharing.v
theories/Proofs/Poly.v
theories/Instance/Fermat.v
theories/Instance/Primality.v
theories/Instance/Zq.v
theories/Spec/Encryption.v
theories/Proofs/Encryption.v
theories/Properties/Keys.v
theories/Spec/LogEquality.v
theories/Proofs/LogEquality.v
theories/Properties/LogEquality.v
theories/Spec/Possession.v
theories/Proofs/Lists.v
theories/Proofs/Possession.v
theories/Spec/Sigma.v
theories/Proofs/Commitment.v
theories/Properties/Possession.v
theories/Properties/Commitment.v
theories/Proofs/SumOfSquares.v
theories/Properties/SumOfSquares.v
theories/Proofs/Codec.v
theories/Properties/Codec.v
theories/Spec/Ring.v
theories/Proofs/Ring.v
theories/Properties/Ring.v
theories/Properties/Range.v
theories/Spec/Range.v
theories/Proofs/Range.v
theories/Proofs/RangeProof.v
theories/Proofs/Sharing.v
theories/Properties/Sharing.v
theories/Spec/Dkg.v
theories/Proofs/Dkg.v
theories/Proofs/DkgHonest.v
theories/Properties/Dkg.v
theories/Spec/Choice.v
theories/Proofs/Choice.v
theories/Properties/Choice.v
theories/Spec/Quadratic.v
theories/Proofs/Quadratic.v
theories/Properties/Quadratic.v
theories/Spec/Serde.v
theories/Proofs/Serde.v
theories/Properties/Serde.v
theories/Properties/Panics.v
theories/Spec/Builds.v
theories/Proofs/Builds.v
theories/Properties/Builds.v
theories/Spec/Tally.v
theories/Properties/Tally.v
theories/Spec/Domains.v
theories/Proofs/Domains.v
theories/Properties/Domains.v
theories/Spec/Rom.v
theories/Spec/Verifiers.v
theories/Proofs/Rom.v
theories/Proofs/Verifiers.v
theories/Proofs/Forgery.v
theories/Proofs/ForgedBallots.v
theories/Properties/Forgery.v
theories/Model/Backends.v
theories/Spec/Backends.v
theories/Proofs/Backends.v
theories/Instance/Curves.v
theories/Properties/Backends.v
theories/Spec/Transfer.v
theories/Proofs/Parametricity.v
theories/Proofs/Transfer.v
theories/Spec/Subgroup.v
theories/Proofs/Subgroup.v
theories/Properties/Transfer.v
theories/Proofs/SubgroupHits.v
theories/Properties/Curve25519.v
theories/Spec/Uniform.v
theories/Proofs/Uniform.v
theories/Proofs/UniformRing.v
theories/Proofs/UniformBallots.v
theories/Spec/Forking.v
theories/Proofs/Forking.v
theories/Spec/Extractors.v
theories/Proofs/Extractors.v
theories/Properties/Uniform.v
theories/Properties/Knowledge.v
theories/Spec/Sources.v
theories/Proofs/Sources.v
theories/Properties/Sources.v
theories/Spec/Wire.v
theories/Proofs/Wire.v
theories/Properties/Wire.v
theories/Model/Float.v
theories/Spec/Float.v
theories/Proofs/Float.v
theories/Properties/Float.v
theories/Spec/Secrecy.v
theories/Proofs/Secrecy.v
theories/Proofs/SecrecyBallots.v
theories/Properties/Secrecy.v
theories/Spec/Coalition.v
theories/Spec/Election.v
theories/Spec/QuadraticSecrecy.v
theories/Spec/Published.v
theories/Spec/Unbiased.v
theories/Proofs/Coalition.v
theories/Proofs/Election.v
theories/Proofs/QuadraticSecrecy.v
theories/Proofs/Published.v
theories/Properties/Coalition.v
theories/Properties/Election.v
theories/Properties/QuadraticSecrecy.v
theories/Properties/Published.v
theories/Properties/PublishedQuadratic.v
theories/Proofs/Unbiased.v
theories/Properties/Unbiased.v
theories/Properties/DkgElection.v
theories/Properties/Debug.v
theories/Spec/DkgSecrecy.v
theories/Proofs/DkgSecrecy.v
theories/Properties/DkgSecrecy.v
theories/Proofs/Rigid.v
theories/Properties/Rigid.v
theories/Spec/Openings.v
theories/Proofs/Openings.v
theories/Properties/Openings.v
theories/Spec/Vartime.v
theories/Proofs/Vartime.v
theories/Properties/Vartime.v
theories/Spec/Draws.v
theories/Proofs/Draws.v
theories/Properties/Draws.v
theories/Properties/Copying.v
theories/Spec/Chain.v
theories/Spec/Sizes.v
theories/Spec/Rogue.v
theories/Model/Messages.v
theories/Properties/Chain.v
theories/Properties/CiphertextAlgebra.v
theories/Properties/Sizes.v
theories/Properties/Rogue.v
theories/Properties/Messages.v
theories/Properties/Reuse.v
theories/Model/Unchecked.v
theories/Properties/Unchecked.v
theories/Spec/Collect.v
theories/Properties/Collect.v
theories/Properties/Binding.v
theories/Properties/RobustElection.v
theories/Spec/RomElection.v
theories/Properties/RomElection.v
theories/Instance/FullSize.v
theories/Properties/RistrettoElection.v
theories/Properties/GenericDecoding.v
theories/Properties/CurveElection.v
theories/Properties/ChosenKeys.v
theories/Properties/DkgKeySet.v
theories/Proofs/ElectionTransfer.v
theories/Proofs/VerifierTransfer.v
theories/Properties/CurveCode.v
theories/Properties/RistrettoKeys.v
theories/Properties/CurveKeys.v
theories/Properties/CurveProofs.v
