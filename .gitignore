*.vo
*.vok
*.vos
*.glob
*.aux
.lia.cache
.nia.cache
.nra.cache
.lia.cache
*.cache
