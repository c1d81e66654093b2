-Q theories Verif
theories/BatchExtra.v
theories/BatchProof.v
theories/BatchProof2.v
theories/BatchProof3.v
theories/BatchProps.v
theories/BatchSpec.v
theories/BigIntExtra.v
theories/BigIntModel.v
theories/BigIntProof.v
theories/BigIntProof2.v
theories/BigIntProps.v
theories/BigIntSpec.v
theories/BinExtra.v
theories/BinModel.v
theories/BinProof.v
theories/BinProof2.v
theories/BinProof3.v
theories/BinProps.v
theories/BinSpec.v
theories/BitsExtra.v
theories/BitsModel.v
theories/BitsProof.v
theories/BitsProps.v
theories/BitsSpec.v
theories/BufferExtra.v
theories/BufferModel.v
theories/BufferProof.v
theories/BufferProps.v
theories/BufferSpec.v
theories/ByExtra.v
theories/ByModel.v
theories/ByProof.v
theories/ByProof2.v
theories/ByProof3.v
theories/ByProof4.v
theories/ByProofT.v
theories/ByProofT2.v
theories/ByProps.v
theories/BySpec.v
theories/ChallengerExtra.v
theories/ChallengerGrind.v
theories/ChallengerModel.v
theories/ChallengerProof.v
theories/ChallengerProps.v
theories/ChallengerSpec.v
theories/Chunked.v
theories/CompressModel.v
theories/CompressProof.v
theories/CompressSpec.v
theories/CosetExtra.v
theories/CosetModel.v
theories/CosetProof.v
theories/CosetProof2.v
theories/CosetProps.v
theories/CycleExtra.v
theories/CycleLabel.v
theories/CycleLabelModel.v
theories/CycleModel.v
theories/CycleProof.v
theories/CycleProps.v
theories/CycleSpec.v
theories/DequeModel.v
theories/DequeProof.v
theories/DequeProof2.v
theories/DequeProps.v
theories/DequeSpec.v
theories/DomainExtra.v
theories/DomainModel.v
theories/DomainProof.v
theories/DomainProof2.v
theories/DomainProps.v
theories/DomainSpec.v
theories/ECExtra.v
theories/ECGroup.v
theories/ECModel.v
theories/ECProof.v
theories/ECProof2.v
theories/ECProps.v
theories/ECSpec.v
theories/EvalsModel.v
theories/EvalsProof.v
theories/EvalsProps.v
theories/EvalsSpec.v
theories/ExprModel.v
theories/ExprSpec.v
theories/ExtFieldExtra.v
theories/ExtFieldModel.v
theories/ExtFieldProof.v
theories/ExtFieldProps.v
theories/ExtFieldSpec.v
theories/FFTExtra.v
theories/FFTModel.v
theories/FFTProof.v
theories/FFTProof2.v
theories/FFTProof3.v
theories/FFTProof4.v
theories/FFTProof5.v
theories/FFTProps.v
theories/FFTSpec.v
theories/Field.v
theories/FieldMerkleExtra.v
theories/FieldMerkleModel.v
theories/FieldMerkleProof.v
theories/FieldMerkleProof2.v
theories/FieldMerkleProof3.v
theories/FieldMerkleProps.v
theories/FieldMerkleSpec.v
theories/FriExtra.v
theories/FriExtra2.v
theories/FriExtra3.v
theories/FriModel.v
theories/FriProof.v
theories/FriProof2.v
theories/FriProof3.v
theories/FriProof4.v
theories/FriProps.v
theories/FriProps2.v
theories/FriSpec.v
theories/FriSpec2.v
theories/FrobProof.v
theories/GrainExtra.v
theories/GrainModel.v
theories/GrainProof.v
theories/GrainProof2.v
theories/GrainProof3.v
theories/GrainProps.v
theories/GrainSpec.v
theories/GrandProductExtra.v
theories/GrandProductModel.v
theories/GrandProductPerm.v
theories/GrandProductProof.v
theories/GrandProductSound.v
theories/GrandProductSpec.v
theories/GraphExtra.v
theories/GraphModel.v
theories/GraphProof.v
theories/GraphProps.v
theories/GraphSpec.v
theories/GrothExtra.v
theories/GrothInst.v
theories/GrothModel.v
theories/GrothProof.v
theories/GrothProof2.v
theories/GrothProof3.v
theories/GrothProof4.v
theories/GrothProof5.v
theories/GrothProps.v
theories/GrothSpec.v
theories/KzgExtra.v
theories/KzgModel.v
theories/KzgProof.v
theories/KzgProof2.v
theories/KzgProof3.v
theories/KzgProof4.v
theories/KzgProof5.v
theories/KzgProps.v
theories/KzgSpec.v
theories/LayoutExtra.v
theories/LayoutModel.v
theories/LayoutProof.v
theories/LayoutProof2.v
theories/LayoutProof3.v
theories/LayoutProof4.v
theories/LayoutProof5.v
theories/LayoutProof6.v
theories/LayoutProof7.v
theories/LayoutProof8.v
theories/LayoutProps.v
theories/LayoutSpec.v
theories/LogDerivExtra.v
theories/LogDerivModel.v
theories/LogDerivProof.v
theories/LogDerivProof2.v
theories/LogDerivProps.v
theories/LogDerivSound.v
theories/LogDerivSpec.v
theories/LookupModel.v
theories/LookupProof.v
theories/LookupProps.v
theories/LookupSpec.v
theories/MSMExtra.v
theories/MSMModel.v
theories/MSMProof.v
theories/MSMProof2.v
theories/MSMProof3.v
theories/MSMProps.v
theories/MSMSpec.v
theories/MerkleExtra.v
theories/MerkleModel.v
theories/MerkleProof.v
theories/MerkleProps.v
theories/MerkleSpec.v
theories/MixedModel.v
theories/MixedProof.v
theories/MixedProps.v
theories/MixedSpec.v
theories/MontInvProof.v
theories/MvSparseExtra.v
theories/MvSparseModel.v
theories/MvSparseProof.v
theories/MvSparseProps.v
theories/MvSparseSpec.v
theories/ParallelizeExtra.v
theories/ParallelizeModel.v
theories/ParallelizeProof.v
theories/ParallelizeProps.v
theories/ParallelizeSpec.v
theories/PcsExtra.v
theories/PcsExtra2.v
theories/PcsExtra3.v
theories/PcsModel.v
theories/PcsProof.v
theories/PcsProof2.v
theories/PcsProof3.v
theories/PcsProof4.v
theories/PcsProof5.v
theories/PcsProof6.v
theories/PcsProps.v
theories/PcsProps2.v
theories/PcsSpec.v
theories/PcsTreeModel.v
theories/PedersenExtra.v
theories/PedersenModel.v
theories/PedersenProof.v
theories/PedersenProps.v
theories/PedersenSpec.v
theories/Pocklington.v
theories/PointSerModel.v
theories/PointSerProof.v
theories/PointSerProps.v
theories/PointSerSpec.v
theories/PolyExtra.v
theories/PolyModel.v
theories/PolyProof.v
theories/PolyProof2.v
theories/PolyProof3.v
theories/PolyProof4.v
theories/PolyProof5.v
theories/PolyProof6.v
theories/PolyProps.v
theories/PolySpec.v
theories/PoseidonExtra.v
theories/PoseidonModel.v
theories/PoseidonProof.v
theories/PoseidonProof2.v
theories/PoseidonProof3.v
theories/PoseidonProof4.v
theories/PoseidonProof5.v
theories/PoseidonProof6.v
theories/PoseidonProps.v
theories/PoseidonSpec.v
theories/PrimeFieldExtra.v
theories/PrimeFieldModel.v
theories/PrimeFieldProof.v
theories/PrimeFieldProps.v
theories/PrimeFieldSpec.v
theories/QapExtra.v
theories/QapModel.v
theories/QapProof.v
theories/QapProof2.v
theories/QapProps.v
theories/QapSpec.v
theories/QuarticProof.v
theories/R1csExtra.v
theories/R1csModel.v
theories/R1csProof.v
theories/R1csProof2.v
theories/R1csProof3.v
theories/R1csProof4.v
theories/R1csProof5.v
theories/R1csProof6.v
theories/R1csProps.v
theories/R1csSpec.v
theories/RangeModel.v
theories/RangeProof.v
theories/RangeProps.v
theories/RangeSpec.v
theories/RationalModel.v
theories/RationalProof.v
theories/RationalProps.v
theories/RngExtra.v
theories/RngModel.v
theories/RngProof.v
theories/RngProof2.v
theories/RngProof3.v
theories/RngProps.v
theories/RngSpec.v
theories/SelectorExtra.v
theories/SelectorModel.v
theories/SelectorProof.v
theories/SelectorProof2.v
theories/SelectorProps.v
theories/SemigroupExtra.v
theories/SemigroupModel.v
theories/SemigroupProof.v
theories/SemigroupProps.v
theories/SemigroupSpec.v
theories/SimdExtra.v
theories/SimdModel.v
theories/SimdProof.v
theories/SimdProof2.v
theories/SimdProps.v
theories/SimdSpec.v
theories/SmallFieldExtra.v
theories/SmallFieldModel.v
theories/SmallFieldProof.v
theories/SmallFieldProps.v
theories/SmallFieldSpec.v
theories/SpongeExtra.v
theories/SpongeModel.v
theories/SpongeProof.v
theories/SpongeProps.v
theories/SpongeSpec.v
theories/SqrtExtra.v
theories/SqrtGold.v
theories/SqrtModel.v
theories/SqrtProof.v
theories/SqrtProof2.v
theories/SqrtProof3.v
theories/SqrtProps.v
theories/SqrtSpec.v
theories/SumcheckExtra.v
theories/SumcheckModel.v
theories/SumcheckProof.v
theories/SumcheckProof2.v
theories/SumcheckProof3.v
theories/SumcheckProof4.v
theories/SumcheckProof5.v
theories/SumcheckProof6.v
theories/SumcheckProps.v
theories/SumcheckSpec.v
theories/TableExtra.v
theories/TableModel.v
theories/TableProof.v
theories/TableProps.v
theories/TableSpec.v
theories/TowerExtra.v
theories/TowerExtra2.v
theories/TowerExtra3.v
theories/TowerExtra4.v
theories/TowerModel.v
theories/TowerProof.v
theories/TowerProps.v
theories/TowerSpec.v
theories/VanishingExtra.v
theories/VanishingModel.v
theories/VanishingProof.v
theories/VanishingProof2.v
theories/VanishingProof3.v
theories/VanishingProof4.v
theories/VanishingProof5.v
theories/VanishingProof6.v
theories/VanishingProof7.v
theories/VanishingProps.v
theories/VanishingSpec.v
theories/WitnessExtra.v
theories/WitnessModel.v
theories/WitnessProof.v
theories/WitnessProps.v
theories/WitnessSpec.v
theories/Zp.v
