-Q theories Verif
theories/Outcome.v
theories/Fieldtac.v
theories/Lincomb.v
theories/LincombSpec.v
theories/LincombFacts.v
theories/R1CS.v
theories/R1CSSpec.v
theories/R1CSFacts.v
theories/Knapsack.v
theories/MerkleGadget.v
theories/GadgetPost.v
theories/MerkleGadgetSpec.v
theories/MerkleSound.v
theories/KnapsackFacts.v
theories/MerkleHash.v
theories/MerkleComplete.v
theories/MerkleHashComplete.v
theories/SetGadget.v
theories/Prop_MerkleGadgets.v
theories/Prop_Relations.v
theories/Circuits.v
theories/CircuitsSpec.v
theories/CircuitsFacts.v
theories/Prop_Circuits.v
theories/Domain.v
theories/DomainFacts.v
theories/ArithPrograms.v
theories/ArithSpec.v
theories/ArithFacts.v
theories/QapFacts.v
theories/SapFacts.v
theories/SspFacts.v
theories/Prop_ArithPrograms.v
theories/Vectors.v
theories/VectorsSpec.v
theories/VectorsFacts.v
theories/Prop_Vectors.v
theories/Pairing.v
theories/SnarkFacts.v
theories/R1csPpzksnark.v
theories/R1csPpzksnarkFacts.v
theories/R1csGgPpzksnark.v
theories/R1csGgPpzksnarkFacts.v
theories/R1csSePpzksnark.v
theories/R1csSePpzksnarkFacts.v
theories/UscsPpzksnark.v
theories/UscsPpzksnarkFacts.v
theories/CircuitPpzksnark.v
theories/CircuitPpzksnarkFacts.v
theories/SnarkVerdicts.v
theories/SnarkHiding.v
theories/Prop_Snarks.v
theories/StdMap.v
theories/MerkleTree.v
theories/MerkleSpec.v
theories/MerkleFacts.v
theories/MerkleMap.v
theories/MerkleMore.v
theories/Prop_Merkle.v
theories/Protoboard.v
theories/GadgetSpec.v
theories/GadgetLogic.v
theories/BasicGadgets.v
theories/BasicGadgetsFacts.v
theories/BasicGadgetsMore.v
theories/BasicGadgetsCopy.v
theories/GadgetNew.v
theories/PbHistory.v
theories/Prop_Gadgets.v
theories/IntegerPermutation.v
theories/Benes.v
theories/BenesFacts.v
theories/BenesRoute.v
theories/AsWaksman.v
theories/AsWaksmanFacts.v
theories/AsWaksmanNet.v
theories/AsWaksmanRoute.v
theories/AsWaksmanValid.v
theories/Prop_Routing.v
theories/Sha256Spec.v
theories/Sha256Gadget.v
theories/GadgetSeq.v
theories/Sha256Bits.v
theories/Sha256Facts.v
theories/Sha256Word.v
theories/Sha256Word2.v
theories/Sha256Sched.v
theories/Sha256Sched2.v
theories/Sha256Round.v
theories/Sha256Rounds.v
theories/Sha256Compress.v
theories/Sha256Count.v
theories/Sha256Hash.v
theories/Prop_Sha256.v
theories/FieldGadgets.v
theories/ExtFieldSpec.v
theories/ExtFieldFacts.v
theories/ExtFieldAlgebra.v
theories/FieldGadgetsFacts.v
theories/ExtFrobenius.v
theories/FieldGadgetsCyc.v
theories/ExpGadget.v
theories/FieldGadgetsSat.v
theories/Prop_FieldGadgets.v
theories/Prop_FieldGadgetsMore.v
theories/FieldExamples.v
theories/Weierstrass.v
theories/CurveSpec.v
theories/CurveFacts.v
theories/CurveSat.v
theories/CurveG2.v
theories/Prop_Curves.v
theories/Memory.v
theories/Prop_Memory.v
theories/Tinyram.v
theories/Prop_Tinyram.v
theories/MemoryOrder.v
theories/MemoryChecker.v
theories/MemoryRoute.v
theories/MemoryCheckerFacts.v
theories/Prop_MemoryChecker.v
theories/RoutingGadget.v
theories/RoutingGadgetFacts.v
theories/RoutingGadgetSound.v
theories/RoutingGadgetComplete.v
theories/Prop_RoutingGadget.v
theories/Serialization.v
theories/SerializationSpec.v
theories/SerializationFacts.v
theories/Prop_Serialization.v
theories/CompliancePredicate.v
theories/CompliancePredicateSpec.v
theories/CompliancePredicateFacts.v
theories/Prop_CompliancePredicate.v
theories/Adsnark.v
theories/AdsnarkFacts.v
theories/Prop_Adsnark.v
theories/Gadgetlib2.v
theories/Gadgetlib2Spec.v
theories/Gadgetlib2Facts.v
theories/Gadgetlib2Gadgets.v
theories/Gadgetlib2Witness.v
theories/Prop_Gadgetlib2.v
theories/Alu.v
theories/AluSpec.v
theories/AluFacts.v
theories/AluSound.v
theories/AluSound2.v
theories/AluShift.v
theories/AluWitness.v
theories/AluWitness2.v
theories/AluWitness3.v
theories/AluWitness4.v
theories/AluWitness5.v
theories/AluWitness6.v
theories/AluWitness7.v
theories/AluWitness8.v
theories/AluWitness9.v
theories/TinyramCpu.v
theories/TinyramCpuFacts.v
theories/Fooram.v
theories/FooramFacts.v
theories/FooramWitness.v
theories/MemoryMask.v
theories/MemoryMaskFacts.v
theories/TinyramTop.v
theories/TinyramTopFacts.v
theories/Prop_Alu.v
theories/Prop_AluWitness.v
theories/Prop_TinyramCpu.v
theories/Prop_Fooram.v
theories/Prop_MemoryMask.v
theories/Prop_TinyramTop.v
