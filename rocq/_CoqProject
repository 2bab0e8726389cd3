-Q theories Verif
theories/CodecModel.v
theories/CodecSpec.v
theories/CodecProofs.v
theories/LexSpec.v
theories/LevelDbModel.v
theories/LevelDbProofs.v
theories/PropertiesCodec.v
theories/BitsetModel.v
theories/BitsetSpec.v
theories/BitsetProofs.v
theories/PropertiesBitset.v
theories/ContainerSpec.v
theories/ContainerModel.v
theories/ContainerProofs.v
theories/PropertiesContainer.v
theories/EditDistSpec.v
theories/EditDistModel.v
theories/EditDistProofs.v
theories/PropertiesEditDist.v
theories/AligSpec.v
theories/AligModel.v
theories/AligProofs.v
theories/PropertiesAlig.v
theories/AMap.v
theories/TextSpec.v
theories/TextModel.v
theories/TextProofs.v
theories/VocabSpec.v
theories/VocabModel.v
theories/VocabProofs.v
theories/PropertiesText.v
theories/PtSpec.v
theories/PtModel.v
theories/PtProofs.v
theories/PtEntries.v
theories/PropertiesPt.v
theories/LexTabModel.v
theories/LexTabProofs.v
theories/SentSpec.v
theories/SentModel.v
theories/SentProofs.v
theories/SockSpec.v
theories/SockModel.v
theories/SockProofs.v
theories/PropertiesIO.v
theories/StackSpec.v
theories/StackModel.v
theories/StackProofs.v
theories/MultiStackProofs.v
theories/MultiStack2Proofs.v
theories/MultiStack3Proofs.v
theories/StackClassProofs.v
theories/PropertiesStack.v
theories/BleuSpec.v
theories/BleuModel.v
theories/BleuProofs.v
theories/BleuRealModel.v
theories/BleuRealProofs.v
theories/PropertiesBleu.v
theories/UserIdSpec.v
theories/UserIdModel.v
theories/UserIdProofs.v
theories/PropertiesUser.v
theories/DecLockSpec.v
theories/DecLockModel.v
theories/DecLockProofs.v
theories/PropertiesLock.v
theories/AnjiSpec.v
theories/AnjiModel.v
theories/AnjiProofs.v
theories/AnjiLoadProofs.v
theories/PropertiesAnji.v
theories/WgSpec.v
theories/WgModel.v
theories/WgBase.v
theories/WgHeurProofs.v
theories/WgNbProofs.v
theories/WgOrderProofs.v
theories/WgUsefulProofs.v
theories/WgBestProofs.v
theories/WgPruneProofs.v
theories/WgNbMore.v
theories/PropertiesWg.v
theories/ExtrSpec.v
theories/ExtrModel.v
theories/ExtrBase.v
theories/ExtrCell.v
theories/ExtrProofs.v
theories/ExtrOnce.v
theories/OchProofs.v
theories/PropertiesExtr.v
theories/MathSpec.v
theories/MathModel.v
theories/MathProofs.v
theories/PropertiesMath.v
theories/TrieIterSpec.v
theories/TrieIterModel.v
theories/TrieIterProofs.v
theories/LmSpec.v
theories/LmModel.v
theories/LmDrive.v
theories/LmTabProofs.v
theories/LmEncProofs.v
theories/LmIoProofs.v
theories/LmJmProofs.v
theories/LmQueryProofs.v
theories/LmStateModel.v
theories/LmStateSpec.v
theories/LmStateProofs.v
theories/PropertiesLm.v
theories/RSums.v
theories/LogNum.v
theories/LogNumProofs.v
theories/Ibm1Spec.v
theories/Ibm1Model.v
theories/Ibm1QueryProofs.v
theories/Ibm1EmProofs.v
theories/Ibm1TrainProofs.v
theories/EmMath.v
theories/Ibm1Likelihood.v
theories/Ibm1SessionProofs.v
theories/PropertiesIbm1.v
theories/HmmSpec.v
theories/HmmModel.v
theories/HmmVitProofs.v
theories/HmmCacheProofs.v
theories/HmmFwdProofs.v
theories/HmmProofs.v
theories/HmmPostProofs.v
theories/PropertiesHmm.v
theories/SlmSpec.v
theories/SlmModel.v
theories/SlmProofs.v
theories/PropertiesSlm.v
theories/DecSpec.v
theories/DecModel.v
theories/DecGapProofs.v
theories/DecHypProofs.v
theories/DecProofs.v
theories/PropertiesDec.v
theories/MetaModel.v
theories/MetaSpec.v
theories/MetaProofs.v
theories/PropertiesMeta.v
theories/SearchSpec.v
theories/SearchModel.v
theories/SearchStackProofs.v
theories/SearchProofs.v
theories/SearchSessionProofs.v
theories/PropertiesSearch.v
theories/SearchWgSpec.v
theories/SearchWgModel.v
theories/SearchWgProofs.v
theories/PropertiesSearchWg.v
theories/FeatSpec.v
theories/FeatModel.v
theories/FeatProofs.v
theories/FeatRecProofs.v
theories/PropertiesFeat.v
theories/DecCheckProofs.v
theories/HeurSpec.v
theories/HeurModel.v
theories/HeurProofs.v
theories/HeurGapProofs.v
theories/NbestProofs.v
theories/PropertiesHeur.v
theories/PbModel.v
theories/PbSpec.v
theories/PbProofs.v
theories/PbCodeProofs.v
theories/PropertiesPb.v
theories/EcSpec.v
theories/EcModel.v
theories/EcProofs.v
theories/PropertiesEc.v
theories/EcwSpec.v
theories/EcwModel.v
theories/EcwProofs.v
theories/EcwGraph.v
theories/EcwInv.v
theories/EcwRun.v
theories/PropertiesEcw.v
theories/EcnSpec.v
theories/EcnModel.v
theories/EcnProofs.v
theories/PropertiesEcn.v
theories/Ibm2Spec.v
theories/Ibm2Model.v
theories/NdProofs.v
theories/NdTrain.v
theories/Ibm2QueryProofs.v
theories/Ibm2TrainProofs.v
theories/Ibm2Likelihood.v
theories/PropertiesIbm2.v
theories/MrModel.v
theories/MrSpec.v
theories/MrProofs.v
theories/MrTableProofs.v
theories/MrTrainModel.v
theories/MrTrainProofs.v
theories/MrPruneProofs.v
theories/PropertiesMr.v
theories/NdGen.v
theories/HmmTrainModel.v
theories/HmmTrainSpec.v
theories/HmmTransProofs.v
theories/HmmEstepProofs.v
theories/HmmTrainProofs.v
theories/HmmSessionProofs.v
theories/PropertiesHmmTrain.v
theories/PmSpec.v
theories/PmModel.v
theories/PmProofs.v
theories/PmText.v
theories/PmPrint.v
theories/PmReload.v
theories/PropertiesPm.v
theories/WgfSpec.v
theories/GfmtModel.v
theories/GfmtProofs.v
theories/GfmtText.v
theories/WgfModel.v
theories/WgfText.v
theories/WgfProofs.v
theories/PropertiesWgf.v
theories/GizaSpec.v
theories/GizaModel.v
theories/GizaText.v
theories/GizaProofs.v
theories/GizaTotal.v
theories/PropertiesGiza.v
theories/ContSpec.v
theories/ContModel.v
theories/ContProofs.v
theories/ContMain.v
theories/PropertiesCont.v
theories/EvalSpec.v
theories/EvalModel.v
theories/EvalProofs.v
theories/EvalGtm.v
theories/EvalChrf.v
theories/PropertiesEval.v
theories/KbSpec.v
theories/KbModel.v
theories/KbProofs.v
theories/KbRun.v
theories/PropertiesKb.v
theories/DhsSpec.v
theories/DhsModel.v
theories/DhsProofs.v
theories/DhsMoves.v
theories/PropertiesDhs.v
theories/CatSpec.v
theories/CatModel.v
theories/CatProofs.v
theories/PropertiesCat.v
theories/TrieSpec.v
theories/TrieModel.v
theories/TrieProofs.v
theories/PredProofs.v
theories/PropertiesTrie.v
theories/DescSpec.v
theories/DescModel.v
theories/DescProofs.v
theories/PropertiesDesc.v
theories/TuneModel.v
theories/TuneSpec.v
theories/TuneProofs.v
theories/PropertiesTune.v
theories/DictModel.v
theories/DictSpec.v
theories/DictProofs.v
theories/PropertiesDict.v
theories/JsonModel.v
theories/JsonSpec.v
theories/JsonProofs.v
theories/PropertiesJson.v
theories/WeightModel.v
theories/WeightSpec.v
theories/WeightProofs.v
theories/PropertiesWeight.v
theories/OnlModel.v
theories/OnlSpec.v
theories/OnlProofs.v
theories/PropertiesOnl.v
theories/OpsModel.v
theories/OpsSpec.v
theories/OpsProofs.v
theories/PropertiesOps.v
theories/OpsContModel.v
theories/PropertiesOpsCont.v
