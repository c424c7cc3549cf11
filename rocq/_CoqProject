-Q theories Verif
theories/FieldSupport.v
theories/Py.v
theories/Dict.v
theories/Tensor.v
theories/TensorProof.v
theories/AttrModel.v
theories/AttrSpec.v
theories/AttrProof.v
theories/AttrProps.v
theories/KnnModel.v
theories/KnnSpec.v
theories/KnnProof.v
theories/KnnProps.v
theories/LinAlg.v
theories/TrakModel.v
theories/TrakSpec.v
theories/TrakProof.v
theories/TrakProps.v
theories/DataInfModel.v
theories/DataInfSpec.v
theories/DataInfProof.v
theories/DataInfProps.v
theories/IhvpModel.v
theories/IhvpSpec.v
theories/IhvpProof.v
theories/IhvpProps.v
theories/ArnoldiModel.v
theories/ArnoldiSpec.v
theories/ArnoldiProof.v
theories/ArnoldiProps.v
theories/EkfacModel.v
theories/EkfacSpec.v
theories/EkfacProof.v
theories/EkfacProps.v
theories/DvembModel.v
theories/DvembSpec.v
theories/DvembProof.v
theories/DvembProps.v
theories/Seeds.v
theories/SeedSpec.v
theories/SeedProof.v
theories/SeedProps.v
theories/ProjModel.v
theories/ProjSpec.v
theories/ProjProof.v
theories/ProjProof2.v
theories/ProjProof3.v
theories/ProjProps.v
theories/TaskModel.v
theories/TaskSpec.v
theories/TaskProof.v
theories/TaskProof2.v
theories/TaskProof3.v
theories/TaskProof4.v
theories/TaskProps.v
theories/MetricModel.v
theories/MetricSpec.v
theories/MetricProof.v
theories/MetricProof2.v
theories/MetricProof3.v
theories/MetricProof4.v
theories/MetricProps.v
theories/RetrainModel.v
theories/RetrainSpec.v
theories/RetrainProof.v
theories/RetrainProof2.v
theories/RetrainProps.v
theories/FlipModel.v
theories/FlipSpec.v
theories/FlipProof.v
theories/FlipProof2.v
theories/FlipProps.v
theories/OffModel.v
theories/OffSpec.v
theories/OffProof.v
theories/OffProof2.v
theories/OffProps.v
theories/MetaModel.v
theories/MetaSpec.v
theories/MetaProof.v
theories/MetaProps.v
theories/DiskModel.v
theories/DiskSpec.v
theories/DiskProof.v
theories/DiskProof2.v
theories/DiskProof3.v
theories/DiskProof4.v
theories/DiskProof5.v
theories/DiskProof6.v
theories/DiskProof7.v
theories/DiskProof8.v
theories/DiskProof9.v
theories/DiskProps.v
theories/BlockModel.v
theories/BlockSpec.v
theories/BlockProof.v
theories/BlockProof2.v
theories/BlockProof3.v
theories/BlockProof4.v
theories/BlockProof5.v
theories/BlockProof6.v
theories/BlockProps.v
theories/BlockDisk.v
theories/DataModel.v
theories/DataSpec.v
theories/DataProps.v
theories/MidiModel.v
theories/MidiSpec.v
theories/MidiProof.v
theories/MidiProof2.v
theories/MidiProof3.v
theories/MidiProps.v
theories/RpsModel.v
theories/RpsSpec.v
theories/RpsProof.v
theories/RpsProps.v
theories/CompModel.v
theories/CompSpec.v
theories/CompProof.v
theories/CompProof2.v
theories/CompProps.v
theories/CompProps2.v
theories/HookModel.v
theories/HookSpec.v
theories/HookProof.v
theories/HookProof2.v
theories/HookProps.v
theories/LoadModel.v
theories/LoadSpec.v
theories/LoadProof.v
theories/LoadProps.v
theories/MtModel.v
theories/MtSpec.v
theories/MtProof.v
theories/MtProps.v
theories/EvalModel.v
theories/EvalSpec.v
theories/EvalProof.v
theories/EvalProps.v
theories/TrainModel.v
theories/TrainSpec.v
theories/TrainProof.v
theories/TrainProps.v
theories/NanoModel.v
theories/NanoSpec.v
theories/NanoProof.v
theories/NanoProof2.v
theories/NanoProps.v
theories/ParamModel.v
theories/ParamSpec.v
theories/ParamProps.v
theories/CliModel.v
theories/CliSpec.v
theories/CliProps.v
theories/SmoothModel.v
theories/SmoothSpec.v
theories/SmoothProps.v
theories/GptModel.v
theories/GptSpec.v
theories/GptProof.v
theories/GptProps.v
theories/GptProps2.v
theories/PoolModel.v
theories/PoolSpec.v
theories/PoolProof.v
theories/PoolProof2.v
theories/PoolProof3.v
theories/PoolProof4.v
theories/PoolProps.v
theories/ConfModel.v
theories/ConfSpec.v
theories/ConfProps.v
theories/AmbModel.v
theories/AmbSpec.v
theories/AmbProof.v
theories/AmbProps.v
theories/LiveModel.v
theories/LiveSpec.v
theories/LiveProof.v
theories/LiveProps.v
theories/QuadModel.v
theories/QuadSpec.v
theories/QuadProof.v
theories/QuadProps.v
theories/NetModel.v
theories/NetSpec.v
theories/NetProof.v
theories/NetProof2.v
theories/NetProps.v
theories/AgreeModel.v
theories/AgreeSpec.v
theories/AgreeProof.v
theories/AgreeProps.v
theories/KdefModel.v
theories/KdefSpec.v
theories/KdefProof.v
theories/KdefProps.v
theories/DrvModel.v
theories/DrvSpec.v
theories/DrvProof.v
theories/DrvProps.v
