-Q theories Verif
theories/Common.v
theories/LoggerModel.v
theories/LoggerSpec.v
theories/LoggerProofs.v
theories/LoggerConcProofs.v
theories/LoggerProps.v
theories/RegistryModel.v
theories/RegistrySpec.v
theories/RegistryProofs.v
theories/RegistryProps.v
theories/MediumStackModel.v
theories/MediumStackSpec.v
theories/MediumStackProofs.v
theories/MediumStackProps.v
theories/FrameBufferModel.v
theories/FrameBufferSpec.v
theories/FrameBufferProofs.v
theories/FrameBufferProps.v
theories/Bytes.v
theories/StarCatalogModel.v
theories/StarCatalogSpec.v
theories/StarCatalogProofs.v
theories/StarCatalogProps.v
theories/TychoModel.v
theories/TychoSpec.v
theories/TychoProofs.v
theories/TychoProps.v
theories/Vec3.v
theories/FrustumModel.v
theories/FrustumSpec.v
theories/FrustumClipProofs.v
theories/ConvexProofs.v
theories/FrustumCoverProofs.v
theories/FrustumArcProofs.v
theories/FrustumProps.v
theories/ArcModel.v
theories/ArcSpec.v
theories/ArcProofs.v
theories/ArcRootProofs.v
theories/ArcProps.v
theories/TilesModel.v
theories/TilesSpec.v
theories/TilesProofs.v
theories/TilesProps.v
theories/RenderModel.v
theories/RenderSpec.v
theories/RenderProofs.v
theories/RenderProps.v
theories/DistortionModel.v
theories/DistortionSpec.v
theories/DistortionProofs.v
theories/DistortionProps.v
theories/CameraModel.v
theories/CameraSpec.v
theories/CameraProofs.v
theories/CameraProps.v
theories/SensorModel.v
theories/SensorSpec.v
theories/SensorProofs.v
theories/SensorProps.v
theories/ImageModel.v
theories/ImageSpec.v
theories/ImageProofs.v
theories/ConvProofs.v
theories/ImageProps.v
theories/DecodeModel.v
theories/DecodeSpec.v
theories/DecodeProofs.v
theories/HdrProofs.v
theories/DecodeProps.v
theories/Float32.v
theories/PixelModel.v
theories/PixelProofs.v
theories/PixelProps.v
theories/SceneModel.v
theories/SceneSpec.v
theories/SceneProofs.v
theories/SceneViewProofs.v
theories/SceneCollectProofs.v
theories/SceneProps.v
theories/TransformModel.v
theories/TransformSpec.v
theories/TransformProofs.v
theories/TransformProps.v
theories/UnitsModel.v
theories/UnitsSpec.v
theories/UnitsProps.v
theories/SpectralModel.v
theories/SpectralSpec.v
theories/SpectralProofs.v
theories/SpectralProofs2.v
theories/SpectralProps.v
theories/PhysicsProps.v
theories/LightModel.v
theories/LightSpec.v
theories/LightProofs.v
theories/LightProps.v
theories/UnresolvedProps.v
theories/BsdfModel.v
theories/BsdfSpec.v
theories/BsdfProps.v
theories/OffsetModel.v
theories/OffsetProofs.v
theories/OffsetProps.v
theories/PsfModel.v
theories/PsfProofs.v
theories/PsfProps.v
theories/PathModel.v
theories/PathSpec.v
theories/PathProofs.v
theories/PathProps.v
theories/SurfaceModel.v
theories/SurfaceSpec.v
theories/SurfaceProofs.v
theories/SurfaceProps.v
theories/SrgbModel.v
theories/SrgbProps.v
theories/ApertureProps.v
theories/TgaSafetyProps.v
theories/PlanckProps.v
theories/McEwenProps.v
theories/SetterProps.v
theories/HdrHeaderProps.v
theories/SolidSpec.v
theories/VndfProofs.v
theories/VndfProps.v
theories/VndfReach.v
theories/MotionModel.v
theories/LightTimeProps.v
theories/MotionProofs.v
theories/MotionProps.v
theories/MotionCases.v
theories/SkyProps.v
theories/SkyCases.v
theories/HapkeProps.v
theories/FocalProps.v
theories/PixelSolidProps.v
theories/MaterialModel.v
theories/MaterialProps.v
theories/AovModel.v
theories/AovProps.v
theories/EnvModel.v
theories/EnvProps.v
theories/TiffModel.v
theories/TiffProofs.v
theories/TiffProps.v
theories/TextureModel.v
theories/TextureProps.v
theories/PngModel.v
theories/PngProps.v
theories/JpegModel.v
theories/JpegProps.v
theories/AiryModel.v
theories/PolyCheck.v
theories/BesselSeries.v
theories/BesselNear.v
theories/BesselFar.v
theories/BesselEnergy.v
theories/BesselStart.v
theories/AiryProps.v
theories/CliModel.v
theories/CliProps.v
theories/PyModel.v
theories/PyProps.v
theories/NameModel.v
theories/NameProps.v
theories/SpiceModel.v
theories/SpiceProps.v
theories/DefocusModel.v
theories/DefocusProps.v
theories/OpticsModel.v
theories/OpticsProps.v
theories/SharedModel.v
theories/SharedProps.v
theories/ColorMapModel.v
theories/ColorMapProps.v
theories/StarLightModel.v
theories/StarLightProps.v
theories/QeModel.v
theories/QeProps.v
theories/UnitTextModel.v
theories/UnitTextProps.v
theories/CrashModel.v
theories/CrashProps.v
theories/PyQuantityModel.v
theories/PyQuantityProps.v
theories/FrustumDistProps.v
theories/EnergyProofs.v
theories/EnergyProps.v
theories/FitsHeaderModel.v
theories/FitsHeaderProofs.v
theories/FitsHeaderProps.v
theories/QuatModel.v
theories/QuatProps.v
theories/LoadModel.v
theories/LoadSpec.v
theories/LoadProofs.v
theories/LoadProps.v
theories/JulianModel.v
theories/JulianProps.v
theories/StarSceneModel.v
theories/StarSceneSpec.v
theories/StarSceneProps.v
theories/KeplerModel.v
theories/KeplerSpec.v
theories/KeplerProps.v
theories/TightProps.v
theories/PyUnitsProps.v
theories/SpectrumOpsModel.v
theories/SpectrumOpsProps.v
theories/TightProps2.v
theories/TightProps3.v
theories/ExposureModel.v
theories/ExposureProps.v
theories/TightProps4.v
theories/TightProps5.v
theories/TightProps6.v
