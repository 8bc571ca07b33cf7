.lia.cache
.nia.cache
*.vo
*.glob
