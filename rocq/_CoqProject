-Q theories Verif
theories/Util.v
theories/SmallStringModel.v
theories/SmallStringProofs.v
theories/QnModel.v
theories/QnSpec.v
theories/QnProofs.v
theories/QnProps.v
theories/TagSetModel.v
theories/TagSetSpec.v
theories/TagSetProofs.v
theories/TagSetProps.v
theories/LatticeModel.v
theories/LatticeSpec.v
theories/LatticeProofs.v
theories/LatticeProps.v
theories/SweepsModel.v
theories/SweepsProofs.v
theories/SweepsProps.v
theories/InfArrayModel.v
theories/InfArraySpec.v
theories/InfArrayProofs.v
theories/InfArrayProps.v
theories/ArgsModel.v
theories/ArgsSpec.v
theories/ArgsProofs.v
theories/ArgsProps.v
theories/AutovectorModel.v
theories/AutovectorProofs.v
theories/AutovectorProps.v
theories/TruncateModel.v
theories/TruncateSpec.v
theories/TruncateProofs.v
theories/TruncateProps.v
theories/RangeModel.v
theories/RangeSpec.v
theories/RangeProofs.v
theories/RangeProps.v
theories/TensorModel.v
theories/TensorSpec.v
theories/TensorProofs.v
theories/SemProofs.v
theories/ContractModel.v
theories/ContractProofs.v
theories/ContractSem.v
theories/LabelProofs.v
theories/DenseModel.v
theories/DenseProofs.v
theories/ContractProps.v
theories/DenseProps.v
theories/IndexModel.v
theories/IndexSpec.v
theories/IndexProofs.v
theories/IndexProps.v
theories/SwapProps.v
theories/ReplaceProps.v
theories/AutoMpoModel.v
theories/AutoMpoSpec.v
theories/AutoMpoProofs.v
theories/AutoMpoChain.v
theories/SiteOpsModel.v
theories/AutoMpoJW.v
theories/AutoMpoProps.v
theories/BigSum.v
theories/MpsModel.v
theories/MpsTensor.v
theories/MpsSpec.v
theories/MpsProofs.v
theories/MpsPosition.v
theories/MpsOrtho.v
theories/MpsPaging.v
theories/MpsWorld.v
theories/MpsProps.v
theories/SumModel.v
theories/SumProofs.v
theories/SumProps.v
theories/ProductModel.v
theories/ProductProps.v
theories/LocalModel.v
theories/LocalSpec.v
theories/LocalProofs.v
theories/LocalTensor.v
theories/LocalMeaning.v
theories/LocalSem.v
theories/LocalProps.v
theories/QdModel.v
theories/QdSpec.v
theories/QdProofs.v
theories/QdFlux.v
theories/QdAdd.v
theories/QdProps.v
theories/QdKernel.v
theories/QdEntries.v
theories/QdLoop.v
theories/QdSum.v
theories/QdDense.v
theories/QdPar.v
theories/QdContractProps.v
theories/LogNumModel.v
theories/LogNumProps.v
theories/CombinerModel.v
theories/CombinerProps.v
theories/DiagModel.v
theories/DiagSpec.v
theories/DiagProofs.v
theories/DiagProps.v
theories/DirectSumModel.v
theories/DirectSumProps.v
theories/CowModel.v
theories/CowSpec.v
theories/CowProps.v
theories/InputModel.v
theories/InputSpec.v
theories/InputProofs.v
theories/InputProps.v
theories/SerialModel.v
theories/SerialSpec.v
theories/SerialProofs.v
theories/SerialProps.v
theories/QCombModel.v
theories/QCombTable.v
theories/QCombProofs.v
theories/QCombProps.v
theories/QDirectSumModel.v
theories/QDirectSumProofs.v
theories/QDirectSumProps.v
theories/SvdMpoModel.v
theories/SvdMpoSpec.v
theories/SvdMpoSum.v
theories/SvdMpoTerms.v
theories/SvdMpoPart.v
theories/SvdMpoSweep.v
theories/SvdMpoChain.v
theories/SvdMpoProps.v
theories/SvdModel.v
theories/SvdSpec.v
theories/SvdRank.v
theories/SvdMat.v
theories/SvdFactor.v
theories/SvdBlocks.v
theories/SvdDense.v
theories/SvdQn.v
theories/SvdFill.v
theories/SvdQ2.v
theories/SvdQsvd.v
theories/SvdProps.v
theories/InnerModel.v
theories/InnerSpec.v
theories/NetProofs.v
theories/ChainProofs.v
theories/InnerProofs.v
theories/InnerOps.v
theories/InnerPairs.v
theories/InnerProps.v
theories/DavSpec.v
theories/DavModel.v
theories/DavProofs.v
theories/DavLoop.v
theories/DavList.v
theories/DavProps.v
theories/DmrgAlg.v
theories/DmrgSpec.v
theories/DmrgModel.v
theories/DmrgStep.v
theories/DmrgProps.v
theories/OrtSpec.v
theories/OrtModel.v
theories/OrtProofs.v
theories/OrtProps.v
theories/CorrSpec.v
theories/CorrModel.v
theories/CorrProofs.v
theories/CorrProps.v
theories/HermSpec.v
theories/HermModel.v
theories/HermPairs.v
theories/HermMat.v
theories/HermDense.v
theories/HermQn.v
theories/HermExp.v
theories/HermProps.v
theories/ObsSpec.v
theories/ObsModel.v
theories/ObsProps.v
theories/QrSpec.v
theories/QrModel.v
theories/QrMat.v
theories/QrFactor.v
theories/QrBlocks.v
theories/QrWrites.v
theories/QrQn.v
theories/QrQqr.v
theories/QrProps.v
theories/ApplySpec.v
theories/ApplyModel.v
theories/ApplyProofs.v
theories/ApplyProps.v
theories/NmultSpec.v
theories/NmultModel.v
theories/NmultProofs.v
theories/NmultProps.v
theories/LsetSpec.v
theories/LsetModel.v
theories/LsetProofs.v
theories/LsetProps.v
theories/GmSpec.v
theories/GmModel.v
theories/GmProofs.v
theories/GmProps.v
theories/GmRealProps.v
theories/TevSpec.v
theories/TevModel.v
theories/TevProofs.v
theories/TevGate.v
theories/TevTriv.v
theories/TevProps.v
theories/TevRealProps.v
theories/ExphSpec.v
theories/ExphModel.v
theories/ExphProofs.v
theories/ExphProps.v
theories/PadeSpec.v
theories/PadeModel.v
theories/PadeProofs.v
theories/PadeNorm.v
theories/PadeProps.v
theories/AexSpec.v
theories/AexModel.v
theories/AexProofs.v
theories/AexProps.v
theories/StSpec.v
theories/StModel.v
theories/StProofs.v
theories/StProps.v
theories/GvSpec.v
theories/GvModel.v
theories/GvProofs.v
theories/GvProps.v
theories/RkSpec.v
theories/RkModel.v
theories/RkProofs.v
theories/RkProps.v
theories/FitSpec.v
theories/FitModel.v
theories/FitProofs.v
theories/FitProps.v
theories/TqSpec.v
theories/TqModel.v
theories/TqProofs.v
theories/TqProps.v
theories/FapSpec.v
theories/FapModel.v
theories/FapProofs.v
theories/FapProps.v
theories/Fa1Props.v
theories/LopModel.v
theories/LopProofs.v
theories/LopProps.v
